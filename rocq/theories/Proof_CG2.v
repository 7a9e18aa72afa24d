(** The conjugate gradient optimiser never makes things worse (arithmetic with infinities and NaN). *)
From Coq Require Import List Arith Lia Bool Reals Lra.
From Verif Require Import Base BaseLemmas Num NumX Linalg LinalgR Model_Optim Proof_Optim Model_CG Spec_CG Proof_CG.
Import ListNotations.
Local Open Scope R_scope.

(** Vectors of numbers. *)
Lemma vsum_fin l : vsum (map Fin l) = Fin (vsum l).
Proof.
  unfold vsum. change (@nzero X NumXI) with (Fin 0). change (@nzero R NumR) with 0. generalize 0. induction l as [|a l IH]; intros b; [reflexivity|].
  cbn [map fold_left]. change (nadd (Fin b) (Fin a)) with (Fin (b + a)). rewrite IH. reflexivity.
Qed.
Lemma dot_fin u v : dot (map Fin u) (map Fin v) = Fin (dot u v).
Proof.
  unfold dot. rewrite <- vsum_fin. f_equal. revert v. induction u as [|a u IH]; intros [|b v]; try reflexivity. cbn [map map2]. rewrite IH. reflexivity.
Qed.
Lemma all_fin_scale c v : all_fin v -> all_fin (vscale (Fin c) v).
Proof. intros (u & ->). exists (map (fun x => x * c) u). unfold vscale. rewrite !map_map. reflexivity. Qed.
Lemma all_fin_opp v : all_fin v -> all_fin (map nopp v).
Proof. intros (u & ->). exists (map Ropp u). rewrite !map_map. reflexivity. Qed.
Lemma all_fin_map2 f g u v : (forall a b, f (Fin a) (Fin b) = Fin (g a b)) -> all_fin u -> all_fin v -> all_fin (map2 f u v).
Proof.
  intros H (a & ->) (b & ->). exists (map2 g a b). revert b. induction a as [|x a IH]; intros [|y b]; try reflexivity. cbn [map map2]. rewrite H, IH. reflexivity.
Qed.
Lemma all_fin_add u v : all_fin u -> all_fin v -> all_fin (vadd u v).
Proof. apply (all_fin_map2 nadd Rplus). reflexivity. Qed.
Lemma all_fin_sub u v : all_fin u -> all_fin v -> all_fin (vsub u v).
Proof. apply (all_fin_map2 nsub Rminus). reflexivity. Qed.
Lemma all_fin_div c v : c <> 0 -> all_fin v -> all_fin (map (fun x => ndiv x (Fin c)) v).
Proof.
  intros Hc (u & ->). exists (map (fun x => x / c) u). rewrite !map_map. apply map_ext. intros a. cbn. destruct (Req_EM_T c 0); [contradiction|reflexivity].
Qed.

Lemma xlt_fin a b : nltb (Fin a) (Fin b) = true <-> a < b.
Proof. cbn. destruct (Rlt_dec a b); split; auto; discriminate. Qed.
Lemma xlt_fin_false a b : nltb (Fin a) (Fin b) = false <-> b <= a.
Proof. cbn. destruct (Rlt_dec a b); split; try discriminate; try lra; auto. Qed.
Lemma xle_fin a b : nleb (Fin a) (Fin b) = true <-> a <= b.
Proof.
  cbn. unfold xleb. cbn. destruct (Rlt_dec a b), (Req_EM_T a b); cbn; split; try discriminate; try lra; auto.
Qed.
Lemma xle_fin_false a b : nleb (Fin a) (Fin b) = false <-> b < a.
Proof.
  cbn. unfold xleb. cbn. destruct (Rlt_dec a b), (Req_EM_T a b); cbn; split; try discriminate; try lra; auto.
Qed.
Lemma fin_cases z : (exists r, z = Fin r) \/ not_finite z = true.
Proof. destruct z; eauto. Qed.
Lemma half_fin r : ndiv (Fin r) (nofnat 2) = Fin (r / 2).
Proof. cbn. destruct (Req_EM_T (1 + 1) 0); [lra|]. f_equal. Qed.

Lemma ok_inj {A} (a b : A) : Ok a = Ok b -> a = b.
Proof. intros [= ->]. reflexivity. Qed.
Section Descent.
  Variable self : ConjugateGD X.
  Hypothesis ok : sane self.
  Variable n : nat.
  Variable cost : list X -> res (X * list X).
  Hypothesis good : well_behaved n cost.

  Lemma clamp_ok z3 z2 : exists r, interp_clamp self (Fin z3) z2 = Fin r /\ (0 <= r \/ z3 <= r).
  Proof.
    destruct ok as (_ & _ & (i & Ei & Hi) & _). unfold interp_clamp. rewrite Ei. rewrite half_fin.
    change (nmul (nsub nonev (Fin i)) (Fin z3)) with (Fin ((1 + - i) * z3)). change (nmul (Fin i) (Fin z3)) with (Fin (i * z3)). cbv zeta.
    assert (Q : exists r, (if not_finite z2 then Fin (z3 / 2) else z2) = Fin r).
    { destruct (fin_cases z2) as [(r & ->)|H]; [eexists; reflexivity|]. rewrite H. eexists. reflexivity. }
    destruct Q as (r & ->). destruct (nleb (Fin r) (Fin (i * z3))) eqn:E1.
    - destruct (nleb (Fin r) (Fin ((1 + - i) * z3))) eqn:E2.
      + eexists. split; [reflexivity|]. destruct (Rle_dec 0 z3); [left|right]; nra.
      + apply xle_fin_false in E2. eexists. split; [reflexivity|]. destruct (Rle_dec 0 z3); [left|right]; nra.
    - destruct (nleb (Fin (i * z3)) _); eexists; (split; [reflexivity|]); destruct (Rle_dec 0 z3); [left|right|left|right]; nra.
  Qed.

  (** Steps stay on the side of the start. *)
  Definition ls_ok (s : list X) (st : Search X) : Prop :=
    ls_fit n cost st /\ all_fin (ls_x st) /\ all_fin (ls_df2 st) /\ ls_f2 st <> NaN /\
    (exists z1 z3, ls_z1 st = Fin z1 /\ ls_z3 st = Fin z3 /\ 0 <= z1 /\ 0 <= z1 + z3) /\
    (exists l, ls_limit st = Fin l /\ (l = -1 \/ 0 <= l)) /\ ls_d2 st = dot (ls_df2 st) s.

  Lemma extrap_ok s st : ls_ok s st -> forall z1, ls_z1 st = Fin z1 -> exists r, extrap_step self st = Fin r /\ 0 <= z1 + r.
  Proof.
    intros (_ & _ & _ & _ & (z1' & z3 & E1 & E3 & H1 & H3) & (l & El & Hl) & _) z1 E. rewrite E in E1. injection E1 as <-.
    destruct ok as (_ & _ & (i & Ei & Hi) & (e & Ee & He) & _).
    unfold extrap_step. rewrite E, E3, El, Ee, Ei.
    assert (Em : @mhalf X NumXI = Fin (- (1 / 2))). { unfold mhalf. change (@nonev X NumXI) with (Fin 1). rewrite (half_fin 1). reflexivity. }
    rewrite Em. set (z2 := ndiv _ (nadd _ _)). clearbody z2.
    change (nmul (Fin z1) (nsub (Fin e) nonev)) with (Fin (z1 * (e + -1))). change (nsub (Fin l) (Fin z1)) with (Fin (l + - z1)). rewrite half_fin.
    change (nmul (Fin z1) (Fin e)) with (Fin (z1 * e)). change (nmul (nopp (Fin z3)) (Fin i)) with (Fin (- z3 * i)).
    change (nmul (Fin (l + - z1)) (nsub nonev (Fin i))) with (Fin ((l + - z1) * (1 + - i))). cbv zeta. change (@nzero X NumXI) with (Fin 0).
    assert (P1 : 0 <= z1 + z1 * (e + -1)) by nra.
    assert (P2 : - (1 / 2) <= l -> 0 <= z1 + (l + - z1) / 2). { intros. assert (0 <= l) by (destruct Hl; lra). lra. }
    destruct (not_finite z2 || nltb z2 (Fin 0))%bool eqn:B.
    - destruct (nltb (Fin l) (Fin (- (1 / 2)))) eqn:B1; eexists; (split; [reflexivity|]); [exact P1|]. apply xlt_fin_false in B1. auto.
    - apply orb_false_iff in B. destruct B as (B0 & B1). destruct (fin_cases z2) as [(r & ->)|Q]; [|congruence]. apply xlt_fin_false in B1.
      change (nadd (Fin r) (Fin z1)) with (Fin (r + z1)).
      destruct (nltb (Fin (- (1 / 2))) (Fin l) && nltb (Fin l) (Fin (r + z1)))%bool eqn:B2.
      { apply andb_true_iff in B2. destruct B2 as (B2 & _). apply xlt_fin in B2. eexists. split; [reflexivity|]. apply P2. lra. }
      destruct (nltb (Fin l) (Fin (- (1 / 2))) && nltb (Fin (z1 * e)) (Fin (r + z1)))%bool; [eexists; split; [reflexivity|exact P1]|].
      destruct (nltb (Fin r) (Fin (- z3 * i))) eqn:B3; [apply xlt_fin in B3; eexists; split; [reflexivity|lra]|].
      destruct (nltb (Fin (- (1 / 2))) (Fin l) && nltb (Fin r) (Fin ((l + - z1) * (1 + - i))))%bool eqn:B4; [|eexists; split; [reflexivity|lra]].
      apply andb_true_iff in B4. destruct B4 as (_ & B4). apply xlt_fin in B4. eexists. split; [reflexivity|lra].
  Qed.

  Section Search.
    Variables (f1 d1 : X) (s : list X).
    Hypothesis Ls : length s = n.
    Hypothesis Fs : all_fin s.

    Lemma well_total x : length x = n -> all_fin x -> exists f df, cost x = Ok (f, df) /\ f <> NaN /\ length df = n /\ all_fin df.
    Proof. apply good. Qed.
    Lemma move_ok st r f3 d3 z3 l z1 : ls_ok s st -> ls_z1 st = Fin z1 -> 0 <= z1 + r -> 0 <= z1 + r + z3 -> (l = -1 \/ 0 <= l) ->
      exists st', move cost s st (Fin r) f3 d3 (Fin z3) (Fin l) = Ok st' /\ ls_ok s st' /\ incl (ls_calls st) (ls_calls st').
    Proof.
      intros ((Hx & _) & Fx & _) E1 P1 P2 Hl. unfold move. destruct (rvadd_fit n (ls_x st) (vscale (Fin r) s) Hx) as (E & L); [rewrite vscale_length; exact Ls|].
      rewrite E. cbn [rbind]. assert (FA : all_fin (vadd (ls_x st) (vscale (Fin r) s))) by (apply all_fin_add; [exact Fx|apply all_fin_scale; exact Fs]).
      destruct (well_total _ L FA) as (f & df & Ec & Nf & Ld & Fd). rewrite Ec. cbn [rbind]. eexists. split; [reflexivity|]. split; [|intros y Hy; right; exact Hy].
      split; [split; [exact L|split; [exact Ld|split; [exact Ec|left; reflexivity]]]|]. split; [exact FA|]. split; [exact Fd|]. split; [exact Nf|]. split.
      - exists (z1 + r), z3. cbn [ls_z1 ls_z3]. rewrite E1. split; [reflexivity|]. split; [reflexivity|]. split; [exact P1|exact P2].
      - split; [|reflexivity]. exists l. split; [reflexivity|exact Hl].
    Qed.
    Lemma interp_ok : forall m st, ls_ok s st -> exists st' m', interp_loop self cost f1 d1 s m st = Ok (st', m') /\ ls_ok s st' /\ (m' <= m)%nat /\ incl (ls_calls st) (ls_calls st').
    Proof.
      induction m as [|m IH]; intros st H; cbn [interp_loop].
      - exists st, O. split; [reflexivity|]. split; [exact H|]. split; [lia|apply incl_refl].
      - destruct (cg_bad _ _ _ _); [|exists st, (S m); split; [reflexivity|]; split; [exact H|]; split; [lia|apply incl_refl]].
        cbv zeta. destruct (H) as (_ & _ & _ & _ & (z1 & z3 & E1 & E3 & H1 & H3) & _). rewrite E3, E1.
        destruct (clamp_ok z3 (interp_step f1 st)) as (r & Er & Hr). rewrite Er. change (nsub (Fin z3) (Fin r)) with (Fin (z3 + - r)).
        destruct (move_ok st r (ls_f3 st) (ls_d3 st) (z3 + - r) z1 z1 H E1) as (st1 & E' & H' & I1); [destruct Hr; lra|lra|right; exact H1|].
        rewrite E'. cbn [rbind]. destruct (IH st1 H') as (st' & m' & E2 & H2 & Hm & I2). exists st', m'. split; [exact E2|]. split; [exact H2|]. split; [lia|].
        eapply incl_tran; eauto.
    Qed.
    Lemma search_ok : forall fuel m st, (m < fuel)%nat -> ls_ok s st -> exists st' b, search_loop self cost f1 d1 s fuel m st = Ok (st', b) /\ ls_ok s st' /\
      incl (ls_calls st) (ls_calls st') /\ (b = true -> cg_bad self f1 d1 st' = false /\ nltb (nmul (cg_sig self) d1) (ls_d2 st') = true).
    Proof.
      induction fuel as [|fuel IH]; intros m st Hf H; [lia|]. cbn [search_loop].
      destruct (interp_ok m st H) as (st1 & m1 & E & H1 & Hm & I1). rewrite E. cbn [rbind].
      destruct (cg_bad _ _ _ _) eqn:EB; [exists st1, false; split; [reflexivity|]; split; [exact H1|]; split; [exact I1|discriminate]|].
      destruct (nltb _ _) eqn:EL; [exists st1, true; split; [reflexivity|]; split; [exact H1|]; split; [exact I1|intros _; split; [exact EB|exact EL]]|].
      destruct m1 as [|m1]; [exists st1, false; split; [reflexivity|]; split; [exact H1|]; split; [exact I1|discriminate]|]. cbv zeta.
      destruct (H1) as (_ & _ & _ & _ & (z1 & z3 & E1 & E3 & P1 & P3) & (l & El & Hl) & _).
      destruct (extrap_ok s st1 H1 z1 E1) as (r & Er & Hr). rewrite Er, El. change (nopp (Fin r)) with (Fin (- r)).
      destruct (move_ok st1 r (ls_f2 st1) (ls_d2 st1) (- r) l z1 H1 E1 Hr) as (st2 & E2 & H2 & I2); [lra|exact Hl|].
      rewrite E2. cbn [rbind]. destruct (IH m1 st2 ltac:(lia) H2) as (st' & b & E' & H' & I' & HB). exists st', b. split; [exact E'|]. split; [exact H'|].
      split; [|exact HB]. eapply incl_tran; [exact I1|]. eapply incl_tran; eauto.
    Qed.
  End Search.

  (** At most, where NaN is not. *)
  Definition at_most (a b : X) : Prop := xleb a b = true.
  Lemma at_most_trans a b c : at_most a b -> at_most b c -> at_most a c.
  Proof.
    unfold at_most, xleb. destruct a as [a| | |], b as [b| | |], c as [c| | |]; cbn; try discriminate; try reflexivity.
    destruct (Rlt_dec a b), (Rlt_dec b c), (Rlt_dec a c), (Req_EM_T a b), (Req_EM_T b c), (Req_EM_T a c); cbn; try discriminate; try reflexivity; lra.
  Qed.
  Lemma at_most_refl a : a <> NaN -> at_most a a.
  Proof. unfold at_most, xleb. destruct a; cbn; try reflexivity; [|contradiction]. destruct (Rlt_dec r r), (Req_EM_T r r); auto. Qed.
  Lemma not_above f2 f1 t : f2 <> NaN -> f1 <> NaN -> t <= 0 -> nltb (nadd f1 (Fin t)) f2 = false -> at_most f2 f1.
  Proof.
    unfold at_most, xleb. destruct f2 as [a| | |], f1 as [b| | |]; cbn; intros; try contradiction; try reflexivity; try discriminate.
    destruct (Rlt_dec (b + t) a); [discriminate|]. destruct (Rlt_dec a b), (Req_EM_T a b); auto; lra.
  Qed.

  Definition rd_ok (f0 : X) (st : Round X) : Prop :=
    rd_fit n cost st /\ all_fin (rd_x st) /\ rd_f1 st <> NaN /\ at_most (rd_f1 st) f0 /\
    exists df s d z, rd_df1 st = map Fin df /\ rd_s st = map Fin s /\ rd_d1 st = Fin d /\ rd_z1 st = Fin z /\ 0 <= z /\ d <= 0 /\ d = dot df s.

  Lemma dot_opp_r (u v : list R) : dot u (map Ropp v) = - dot u v.
  Proof.
    revert v. induction u as [|a u IH]; intros [|b v]; try (unfold dot, vsum; cbn; lra).
    cbn [map]. rewrite !dot_cons, IH. ring.
  Qed.
  Lemma dot_opp2 (v : list R) : - dot (map Ropp v) (map Ropp v) = dot v (map Ropp v).
  Proof. rewrite !dot_opp_r. rewrite (dot_comm (map Ropp v) v), dot_opp_r. ring. Qed.
  Lemma start_ok f0 st : rd_ok f0 st -> exists ls, search_start cost st = Ok ls /\ ls_ok (rd_s st) ls /\ incl (rd_calls st) (ls_calls ls).
  Proof.
    intros ((Hx & Hd & Hs & Hc & Hin) & Fx & Nf & Hm & (df & s & d & z & Ed & Es & E1 & Ez & Hz & Hn & Edot)). unfold search_start.
    destruct (rvadd_fit n (rd_x st) (vscale (rd_z1 st) (rd_s st)) Hx) as (E & L); [rewrite vscale_length; exact Hs|].
    rewrite E. cbn [rbind]. assert (FA : all_fin (vadd (rd_x st) (vscale (rd_z1 st) (rd_s st)))).
    { apply all_fin_add; [exact Fx|]. rewrite Ez. apply all_fin_scale. exists s. exact Es. }
    destruct (good _ L FA) as (f & dg & Ec & Nc & Ld & Fd). rewrite Ec. cbn [rbind]. eexists. split; [reflexivity|]. split; [|intros y Hy; right; exact Hy].
    split; [split; [exact L|split; [exact Ld|split; [exact Ec|left; reflexivity]]]|]. split; [exact FA|]. split; [exact Fd|]. split; [exact Nc|]. split; [|split].
    - exists z, (- z). cbn [ls_z1 ls_z3]. rewrite Ez. split; [reflexivity|]. split; [reflexivity|]. split; [exact Hz|lra].
    - exists (-1). split; [reflexivity|left; reflexivity].
    - reflexivity.
  Qed.
  Lemma pow2_X k : @pow2 X NumXI k = Fin (2 ^ k).
  Proof.
    induction k as [|k IH]; [reflexivity|]. change (@pow2 X NumXI (S k)) with (nmul (nofnat 2) (@pow2 X NumXI k)). rewrite IH.
    cbn [nmul nofnat NumXI xmul]. reflexivity.
  Qed.
  Lemma min_positive_X : exists e, @min_positive X NumXI = Fin e /\ 0 < e.
  Proof.
    unfold min_positive. rewrite pow2_X. exists (1 / 2 ^ 1022). split.
    - cbn [ndiv NumXI nonev xdiv]. destruct (Req_EM_T (2 ^ 1022) 0) as [E|E]; [exfalso; revert E; apply pow_nonzero; lra|reflexivity].
    - apply Rdiv_lt_0_compat; [lra|]. apply pow_lt. lra.
  Qed.
  Lemma accept_ok f0 st ls : rd_ok f0 st -> ls_ok (rd_s st) ls -> cg_bad self (rd_f1 st) (rd_d1 st) ls = false ->
    nltb (nmul (cg_sig self) (rd_d1 st)) (ls_d2 ls) = true -> exists st', accept self st ls = Ok st' /\ rd_ok f0 st'.
  Proof.
    intros (HF & Fx & Nf & Hm & (df & s & d & z & Ed & Es & E1 & Ez & Hz & Hn & Edot)) (LF & FX & (g & Eg) & Ng & (z1 & z3 & Ez1 & _ & Pz & _) & _ & Ed2) HB HS.
    destruct (accept_fit self n cost st ls HF LF) as (st' & E' & HF' & _). exists st'. split; [exact E'|].
    destruct ok as ((rho & Er & Hr) & (sig & Esig) & _ & _ & (q & Eq & Hq)).
    rewrite Eg, Es, dot_fin in Ed2. unfold cg_bad in HB. rewrite E1, Ez1, Er, Esig, Ed2 in HB. rewrite E1, Esig, Ed2 in HS.
    apply orb_false_iff in HB. destruct HB as (HB1 & HB2).
    change (nmul (nmul (Fin z1) (Fin rho)) (Fin d)) with (Fin (z1 * rho * d)) in HB1. change (nmul (nopp (Fin sig)) (Fin d)) with (Fin (- sig * d)) in HB2.
    change (nmul (Fin sig) (Fin d)) with (Fin (sig * d)) in HS. apply xlt_fin in HS. apply xlt_fin_false in HB2.
    assert (Hd : d <> 0) by (intros ->; lra).
    assert (HM : at_most (ls_f2 ls) (rd_f1 st)) by (apply (not_above _ _ (z1 * rho * d)); auto; assert (0 <= z1 * rho) by (apply Rmult_le_pos; auto); nra).
    assert (Hdd : dot df df <> 0).
    { intros E. apply Hd. rewrite Edot. apply dot_zeros_l. apply dot_self_0. exact E. }
    revert E'. unfold accept. cbv zeta. rewrite Eg, Ed, Es. rewrite dot_fin.
    destruct HF as (Hx & Ldf & Lds & _). rewrite Ed, map_length in Ldf. rewrite Es, map_length in Lds. pose proof LF as (_ & Lg & _). rewrite Eg, map_length in Lg.
    unfold rvsub at 1. rewrite !map_length, Lg, Ldf, Nat.eqb_refl. cbn [rassert rbind].
    destruct (all_fin_sub (map Fin g) (map Fin df)) as (dg & Edg); [exists g; reflexivity|exists df; reflexivity|]. rewrite Edg, dot_fin.
    destruct (all_fin_sub (map (fun x => ndiv x (Fin (dot df df))) (vscale (Fin (dot dg g)) (map Fin s))) (map Fin g)) as (s' & Es').
    { apply all_fin_div; [exact Hdd|]. apply all_fin_scale. exists s. reflexivity. } { exists g. reflexivity. }
    unfold rvsub. rewrite map_length, vscale_length, !map_length, Lds, Lg, Nat.eqb_refl. cbn [rassert rbind]. rewrite Es', dot_fin.
    assert (Q : exists s2 e, (if nltb nzero (Fin (dot g s')) then map nopp (map Fin g) else map Fin s') = map Fin s2 /\
       (if nltb nzero (Fin (dot g s')) then nopp (dot (if nltb nzero (Fin (dot g s')) then map nopp (map Fin g) else map Fin s') (if nltb nzero (Fin (dot g s')) then map nopp (map Fin g) else map Fin s')) else Fin (dot g s')) = Fin e /\
       e <= 0 /\ e = dot g s2).
    { destruct (nltb nzero (Fin (dot g s'))) eqn:EQ.
      - exists (map Ropp g), (dot g (map Ropp g)). assert (EO : map nopp (map Fin g) = map Fin (map Ropp g)) by (rewrite !map_map; reflexivity).
        split; [exact EO|]. rewrite EO, dot_fin. split; [cbn; rewrite dot_opp2; reflexivity|]. split; [|reflexivity]. rewrite dot_opp_r. pose proof (dot_ge0 g). lra.
      - exists s', (dot g s'). split; [reflexivity|]. split; [reflexivity|]. split; [|reflexivity]. change (@nzero X NumXI) with (Fin 0) in EQ. apply xlt_fin_false in EQ. exact EQ. }
    destruct Q as (s2 & e & Q1 & Q2 & Q3 & Q4). rewrite Q2. rewrite Q1. rewrite E1, Ez1, Eq. destruct min_positive_X as (mp & Emp & Pmp). rewrite Emp.
    change (nsub (Fin e) (Fin mp)) with (Fin (e + - mp)).
    assert (ER : ndiv (Fin d) (Fin (e + - mp)) = Fin (d / (e + - mp))).
    { cbn. destruct (Req_EM_T (e + - mp) 0); [lra|reflexivity]. }
    rewrite ER. intros HH. apply ok_inj in HH. subst st'. split; [exact HF'|]. split; [exact FX|]. split; [exact Ng|]. split; [exact (at_most_trans _ _ _ HM Hm)|].
    assert (PR : 0 <= d / (e + - mp)).
    { replace (d / (e + - mp)) with ((- d) / (mp - e)) by (field; lra). apply Rmult_le_pos; [lra|]. left. apply Rinv_0_lt_compat. lra. }
    exists g, s2, e, (z1 * (if nltb (Fin q) (Fin (d / (e + - mp))) then q else d / (e + - mp))). cbn [rd_df1 rd_s rd_d1 rd_z1].
    split; [reflexivity|]. split; [reflexivity|]. split; [reflexivity|]. split; [destruct (nltb (Fin q) _); reflexivity|].
    split; [apply Rmult_le_pos; [exact Pz|]; destruct (nltb (Fin q) _); auto|]. split; [exact Q3|exact Q4].
  Qed.
  Lemma fresh_ok g : exists d z, nopp (dot (map nopp (map Fin g)) (map nopp (map Fin g))) = Fin d /\ d <= 0 /\ d = dot g (map Ropp g) /\
    ndiv nonev (nsub nonev (Fin d)) = Fin z /\ 0 <= z.
  Proof.
    assert (EO : map nopp (map Fin g) = map Fin (map Ropp g)) by (rewrite !map_map; reflexivity). pose proof (dot_ge0 g).
    exists (dot g (map Ropp g)), (1 / (1 + - dot g (map Ropp g))). rewrite EO, dot_fin. rewrite <- dot_opp2. split; [reflexivity|].
    assert (HD : - dot (map Ropp g) (map Ropp g) <= 0) by (pose proof (dot_ge0 (map Ropp g)); lra).
    split; [exact HD|]. split; [reflexivity|]. split.
    - cbn. destruct (Req_EM_T _ 0) as [E|_]; [lra|reflexivity].
    - left. apply Rdiv_lt_0_compat; lra.
  Qed.
  Lemma reject_ok f0 st ls : rd_ok f0 st -> ls_ok (rd_s st) ls -> incl (rd_calls st) (ls_calls ls) -> rd_ok f0 (reject st ls).
  Proof.
    intros ((Hx & Hd & Hs & Hc & Hin) & Fx & Nf & Hm & _) ((_ & Lg & _) & _ & (g & Eg) & _) HI.
    destruct (fresh_ok g) as (d & z & E1 & D1 & D2 & E2 & Hz). unfold reject. rewrite Eg in *. cbv zeta. split.
    - split; [exact Hx|]. split; [exact Lg|]. split; [cbn; rewrite map_length; exact Lg|]. split; [exact Hc|]. cbn. apply HI, Hin.
    - split; [exact Fx|]. split; [exact Nf|]. split; [exact Hm|]. exists g, (map Ropp g), d, z. cbn [rd_df1 rd_s rd_d1 rd_z1]. rewrite E1.
      split; [reflexivity|]. split; [rewrite !map_map; reflexivity|]. split; [reflexivity|]. split; [exact E2|]. auto.
  Qed.
  Lemma loop_ok f0 : forall k st, rd_ok f0 st -> exists st', cg_loop self cost k st = Ok st' /\ length (rd_x st') = n /\ all_fin (rd_x st') /\
    at_most (rd_f1 st') f0 /\ exists df, cost (rd_x st') = Ok (rd_f1 st', df).
  Proof.
    induction k as [|k IH]; intros st H; cbn [cg_loop].
    - exists st. split; [reflexivity|]. destruct H as ((Hx & _ & _ & Hc & _) & Fx & _ & Hm & _). auto.
    - destruct (start_ok f0 st H) as (ls & E & Hl & Il). rewrite E. cbn [rbind].
      destruct (H) as ((Hx & Hd & Hs & Hc & Hin) & Fx & Nf & Hm & (df & s & d & z & Ed & Es & _)).
      destruct (search_ok (rd_f1 st) (rd_d1 st) (rd_s st) Hs ltac:(exists s; exact Es) (S (cg_max self)) (cg_max self) ls ltac:(lia) Hl) as (ls' & b & E' & Hl' & Il' & HB).
      rewrite E'. cbn [rbind]. destruct b.
      + destruct (HB eq_refl) as (B1 & B2). destruct (accept_ok f0 st ls' H Hl' B1 B2) as (st1 & E1 & H1). rewrite E1. cbn [rbind]. apply IH. exact H1.
      + destruct (rd_failed st || (cg_iters self <? cg_iters self - k)%nat)%bool.
        * eexists. split; [reflexivity|]. cbn. auto.
        * apply IH. apply reject_ok; auto. eapply incl_tran; eauto.
  Qed.
  Theorem never_worse start : length start = n -> all_fin start -> exists x f df f' df', cg_optimize self cost start = Ok x /\ length x = n /\ all_fin x /\
    cost start = Ok (f, df) /\ cost x = Ok (f', df') /\ xleb f' f = true.
  Proof.
    intros L FS. unfold cg_optimize, cg_run, cg_start. destruct (good start L FS) as (f & df & E & Nf & Ld & (g & Eg)). rewrite E. cbn [rbind]. cbv zeta.
    destruct (fresh_ok g) as (d & z & E1 & D1 & D2 & E2 & Hz). rewrite Eg in *. rewrite E1, E2.
    match goal with |- context [cg_loop self cost _ ?s0] => destruct (loop_ok f (cg_iters self) s0) as (st & E' & Lx & FX & HM & (df' & Ec)) end.
    - split; [|split; [exact FS|split; [exact Nf|split; [apply at_most_refl; exact Nf|]]]].
      + split; [exact L|]. split; [exact Ld|]. split; [cbn; rewrite map_length; exact Ld|]. split; [eexists; exact E|left; reflexivity].
      + exists g, (map Ropp g), d, z. cbn [rd_df1 rd_s rd_d1 rd_z1]. split; [reflexivity|]. split; [rewrite !map_map; reflexivity|]. auto.
    - exists (rd_x st), f, (map Fin g), (rd_f1 st), df'. rewrite E'. cbn [rbind]. split; [reflexivity|]. auto.
  Qed.
  (** A stationary start is returned. *)
  Definition zero_vec : list X := map Fin (repeat 0 n).
  Lemma zero_step x r : length x = n -> all_fin x -> vadd x (vscale (Fin r) zero_vec) = x.
  Proof.
    unfold zero_vec. intros L (u & ->). rewrite map_length in L. clear good ok. revert u L. generalize n as k. induction k as [|k IH]; intros [|a u] L; try discriminate; [reflexivity|].
    cbn in L |- *. f_equal; [f_equal; ring|]. apply IH. congruence.
  Qed.
  Lemma move_still st z2 f3 d3 z3 l st' r : z2 = Fin r -> length (ls_x st) = n -> all_fin (ls_x st) -> move cost zero_vec st z2 f3 d3 z3 l = Ok st' -> ls_x st' = ls_x st.
  Proof.
    intros -> L FX. unfold move, rvadd. destruct (_ =? _)%nat; cbn [rassert rbind]; [|discriminate]. rewrite zero_step by auto.
    destruct (cost (ls_x st)) as [[f df]| |]; try discriminate. intros [= <-]. reflexivity.
  Qed.
  Lemma zero_vec_length : length zero_vec = n.
  Proof. unfold zero_vec. rewrite map_length, repeat_length. reflexivity. Qed.
  Lemma zero_vec_fin : all_fin zero_vec.
  Proof. exists (repeat 0 n). reflexivity. Qed.
  Lemma interp_still f1 d1 : forall m st st' m', ls_ok zero_vec st -> interp_loop self cost f1 d1 zero_vec m st = Ok (st', m') -> ls_x st' = ls_x st.
  Proof.
    induction m as [|m IH]; intros st st' m' H E; cbn [interp_loop] in E; [injection E as <- <-; reflexivity|].
    destruct (cg_bad _ _ _ _); [|injection E as <- <-; reflexivity]. cbv zeta in E.
    destruct (H) as ((Lx & _) & FX & _ & _ & (z1 & z3 & E1 & E3 & H1 & H3) & _). rewrite E3, E1 in E.
    destruct (clamp_ok z3 (interp_step f1 st)) as (r & Er & Hr). rewrite Er in E. change (nsub (Fin z3) (Fin r)) with (Fin (z3 + - r)) in E.
    destruct (move_ok zero_vec zero_vec_length zero_vec_fin st r (ls_f3 st) (ls_d3 st) (z3 + - r) z1 z1 H E1) as (st1 & E' & H' & _); [destruct Hr; lra|lra|right; exact H1|].
    rewrite E' in E. cbn [rbind] in E. rewrite (IH _ _ _ H' E). exact (move_still _ _ _ _ _ _ _ _ eq_refl Lx FX E').
  Qed.
  Lemma search_still f1 d1 : forall fuel m st st' b, (m < fuel)%nat -> ls_ok zero_vec st -> search_loop self cost f1 d1 zero_vec fuel m st = Ok (st', b) -> ls_x st' = ls_x st.
  Proof.
    induction fuel as [|fuel IH]; intros m st st' b Hf H E; [lia|]. cbn [search_loop] in E.
    destruct (interp_ok f1 d1 zero_vec zero_vec_length zero_vec_fin m st H) as (st1 & m1 & E0 & H1 & Hm & _). rewrite E0 in E. cbn [rbind] in E.
    pose proof (interp_still f1 d1 _ _ _ _ H E0) as Q. rewrite <- Q.
    destruct (cg_bad _ _ _ _); [injection E as <- <-; reflexivity|]. destruct (nltb _ _); [injection E as <- <-; reflexivity|].
    destruct m1 as [|m1]; [injection E as <- <-; reflexivity|]. cbv zeta in E.
    destruct (H1) as ((Lx & _) & FX & _ & _ & (z1 & z3 & E1 & E3 & P1 & P3) & (l & El & Hl) & _).
    destruct (extrap_ok zero_vec st1 H1 z1 E1) as (r & Er & Hr). rewrite Er, El in E. change (nopp (Fin r)) with (Fin (- r)) in E.
    destruct (move_ok zero_vec zero_vec_length zero_vec_fin st1 r (ls_f2 st1) (ls_d2 st1) (- r) l z1 H1 E1 Hr) as (st2 & E2 & H2 & _); [lra|exact Hl|].
    rewrite E2 in E. cbn [rbind] in E. rewrite (IH m1 st2 st' b ltac:(lia) H2 E). exact (move_still _ _ _ _ _ _ _ _ eq_refl Lx FX E2).
  Qed.
  Lemma zeros_opp : map Ropp (repeat 0 n) = repeat 0 n.
  Proof. clear good ok. generalize n as k. induction k as [|k IH]; [reflexivity|]. cbn. rewrite IH. f_equal. ring. Qed.
  Lemma zeros_all k : Forall (fun x => x = 0) (repeat 0 k).
  Proof. induction k; constructor; auto. Qed.
  Lemma loop_still f0 start : cost start = Ok (f0, zero_vec) -> forall k st, rd_ok f0 st -> rd_x st = start -> rd_s st = zero_vec ->
    exists st', cg_loop self cost k st = Ok st' /\ rd_x st' = start.
  Proof.
    intros EC. induction k as [|k IH]; intros st H EX ES; cbn [cg_loop]; [exists st; auto|].
    destruct (start_ok f0 st H) as (ls & E & Hl & Il). rewrite E. cbn [rbind].
    destruct (H) as ((Hx & Hd & Hs & Hc & Hin) & Fx & Nf & Hm & (df & s & d & z & Ed & Es & E1 & Ez & Hz & Hn & Edot)).
    assert (D0 : d = 0). { rewrite Edot, dot_comm. apply dot_zeros_l. replace s with (repeat 0 n); [apply zeros_all|].
      rewrite ES in Es. unfold zero_vec in Es. clear - Es. revert s Es. generalize (repeat 0 n) as t. induction t as [|a t IH]; intros [|b s] E; try discriminate; [reflexivity|].
      cbn in E. injection E as -> E. f_equal. auto. }
    rewrite ES in *.
    assert (X0 : ls_x ls = start).
    { revert E. unfold search_start, rvadd. rewrite Ez, ES. destruct (_ =? _)%nat; cbn [rassert rbind]; [|discriminate]. rewrite zero_step by auto. rewrite EX, EC. cbn [rbind]. intros [= <-]. reflexivity. }
    destruct (search_ok (rd_f1 st) (rd_d1 st) zero_vec Hs zero_vec_fin (S (cg_max self)) (cg_max self) ls ltac:(lia) Hl) as (ls' & b & E' & Hl' & Il' & HB).
    pose proof (search_still _ _ _ _ _ _ _ (Nat.lt_succ_diag_r _) Hl E') as X1. rewrite X0 in X1.
    rewrite E'. cbn [rbind]. destruct b.
    - exfalso. destruct (HB eq_refl) as (B1 & B2). destruct ok as (_ & (sig & Esig) & _). destruct Hl' as ((_ & _ & Q & _) & _ & _ & _ & _ & _ & Ed2).
      rewrite X1, EC in Q. injection Q as _ Q. rewrite <- Q in Ed2. unfold zero_vec in Ed2. rewrite dot_fin, dot_zeros_l in Ed2 by apply zeros_all.
      rewrite Ed2, E1, D0, Esig in B2. change (nmul (Fin sig) (Fin 0)) with (Fin (sig * 0)) in B2. apply xlt_fin in B2. lra.
    - destruct (rd_failed st || (cg_iters self <? cg_iters self - k)%nat)%bool; [eexists; split; [reflexivity|exact EX]|].
      apply IH; [apply reject_ok; auto; [rewrite ES; exact Hl'|eapply incl_tran; eauto]|exact EX|].
      destruct Hl' as ((_ & _ & Q & _) & _). rewrite X1, EC in Q. injection Q as _ Q. cbn [reject rd_s]. rewrite <- Q. unfold zero_vec.
      rewrite map_map. rewrite <- zeros_opp at 2. rewrite map_map. reflexivity.
  Qed.
  Theorem stationary start f : length start = n -> all_fin start -> f <> NaN -> cost start = Ok (f, zero_vec) -> cg_optimize self cost start = Ok start.
  Proof.
    intros L FS Nf E. unfold cg_optimize, cg_run, cg_start. rewrite E. cbn [rbind]. cbv zeta.
    destruct (fresh_ok (repeat 0 n)) as (d & z & E1 & D1 & D2 & E2 & Hz). change (map Fin (repeat 0 n)) with zero_vec in E1. rewrite E1, E2.
    match goal with |- context [cg_loop self cost _ ?s0] => destruct (loop_still f start E (cg_iters self) s0) as (st & E' & EX) end.
    - split; [|split; [exact FS|split; [exact Nf|split; [apply at_most_refl; exact Nf|]]]].
      + split; [exact L|]. split; [apply zero_vec_length|]. split; [cbn; rewrite map_length; apply zero_vec_length|]. split; [eexists; exact E|left; reflexivity].
      + exists (repeat 0 n), (map Ropp (repeat 0 n)), d, z. cbn [rd_df1 rd_s rd_d1 rd_z1]. split; [reflexivity|]. split; [unfold zero_vec; rewrite !map_map; reflexivity|]. auto.
    - reflexivity.
    - cbn [rd_s]. unfold zero_vec. rewrite <- zeros_opp at 2. rewrite !map_map. reflexivity.
    - rewrite E'. cbn [rbind]. rewrite EX. reflexivity.
  Qed.
End Descent.
