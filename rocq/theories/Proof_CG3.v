From Coq Require Import List Arith Lia Bool Reals Lra.
From Verif Require Import Base BaseLemmas Num NumX Linalg LinalgR MatR Model_Optim Proof_Optim Model_CG Spec_CG Proof_CG Proof_CG2 Spec_KerInv Spec_CG2.
From Verif Require Proof_KerInv.
Import ListNotations.
Local Open Scope R_scope.

(** ** The trial steps over the reals *)
Section Poly.
  Variables (self : ConjugateGD R) (f1 : R) (st : Search R) (c0 c1 c2 c3 : R).
  Hypothesis H : fits c0 c1 c2 c3 st.
  Hypothesis Z : ls_z3 st <> 0.
  Lemma two_R : (nofnat 2 : R) = 2. Proof. cbn. lra. Qed.
  Lemma three_R : (nofnat 3 : R) = 3. Proof. cbn. lra. Qed.
  Lemma six_R : (nofnat 6 : R) = 6. Proof. cbn. lra. Qed.
  Lemma a_cubic : cg_a st = 3 * c3 * ls_z3 st ^ 2.
  Proof.
    destruct H as (F2 & D2 & F3 & D3). unfold cg_a. rewrite six_R, three_R. cbn [nadd nsub nmul ndiv NumR]. rewrite <- F2, <- D2, <- F3, <- D3. unfold cubic, cubic'. field. exact Z.
  Qed.
  Lemma b_cubic : cg_b st = c2 * ls_z3 st ^ 2.
  Proof.
    destruct H as (F2 & D2 & F3 & D3). unfold cg_b. rewrite two_R, three_R. cbn [nadd nsub nmul ndiv NumR]. rewrite <- F2, <- D2, <- F3, <- D3. unfold cubic, cubic'. ring.
  Qed.
  Lemma d2_cubic : ls_d2 st = c1. Proof. destruct H as (_ & D2 & _). rewrite <- D2. unfold cubic'. ring. Qed.
  Hypothesis D : 0 < c2 ^ 2 - 3 * c3 * c1.
  Lemma root : exists w, 0 < w /\ w ^ 2 = c2 ^ 2 - 3 * c3 * c1 /\ nsqrt (nsub (nmul (cg_b st) (cg_b st)) (nmul (nmul (nmul (cg_a st) (ls_d2 st)) (ls_z3 st)) (ls_z3 st))) = w * ls_z3 st ^ 2.
  Proof.
    exists (sqrt (c2 ^ 2 - 3 * c3 * c1)). split; [now apply sqrt_lt_R0|]. split; [rewrite pow2_sqrt; lra|].
    rewrite a_cubic, b_cubic, d2_cubic. cbn [nsub nmul nsqrt NumR].
    replace (c2 * ls_z3 st ^ 2 * (c2 * ls_z3 st ^ 2) - 3 * c3 * ls_z3 st ^ 2 * c1 * ls_z3 st * ls_z3 st) with ((c2 ^ 2 - 3 * c3 * c1) * (ls_z3 st ^ 2) ^ 2) by ring.
    rewrite sqrt_mult_alt by lra. f_equal. apply sqrt_pow2. apply pow2_ge_0.
  Qed.
  Theorem interp_cubic : ~ f1 < ls_f2 st -> c3 <> 0 -> cubic' c1 c2 c3 (interp_step f1 st) = 0 /\ 0 < cubic'' c2 c3 (interp_step f1 st).
  Proof.
    intros HF H3. unfold interp_step. destruct (nltb f1 (ls_f2 st)) eqn:E; [exfalso; apply HF; cbn in E; destruct (Rlt_dec f1 (ls_f2 st)); [auto|discriminate]|]. cbv zeta.
    destruct root as (w & Pw & W & ->). rewrite a_cubic, b_cubic. cbn [nsub ndiv NumR].
    replace ((w * ls_z3 st ^ 2 - c2 * ls_z3 st ^ 2) / (3 * c3 * ls_z3 st ^ 2)) with ((w - c2) / (3 * c3)) by (field; auto). unfold cubic', cubic''. split.
    - replace (c1 + 2 * c2 * ((w - c2) / (3 * c3)) + 3 * c3 * ((w - c2) / (3 * c3)) ^ 2) with (c1 + (w ^ 2 - c2 ^ 2) / (3 * c3)) by (field; auto). rewrite W. field. auto.
    - replace (2 * c2 + 6 * c3 * ((w - c2) / (3 * c3))) with (2 * w) by (field; auto). lra.
  Qed.
  Theorem extrap_cubic : 0 <= c2 \/ c1 < 0 /\ 0 < c3 -> exists z, cubic' c1 c2 c3 z = 0 /\ 0 < cubic'' c2 c3 z /\
    (extrap_step self st = z \/ extrap_step self st = ls_z1 st * (cg_ext self - 1) \/ extrap_step self st = (ls_limit st - ls_z1 st) / 2 \/
     extrap_step self st = - ls_z3 st * cg_int self \/ extrap_step self st = (ls_limit st - ls_z1 st) * (1 - cg_int self)).
  Proof.
    intros HC. destruct root as (w & Pw & W & Ew). assert (P : 0 < c2 + w). { destruct HC as [?|[? ?]]; [lra|]. assert (3 * c3 * c1 < 0) by nra. destruct (Rle_dec 0 c2); [lra|]. nra. }
    exists (- c1 / (c2 + w)). unfold cubic', cubic''. split; [|split].
    - replace (c1 + 2 * c2 * (- c1 / (c2 + w)) + 3 * c3 * (- c1 / (c2 + w)) ^ 2) with (c1 * (w ^ 2 - c2 ^ 2 + 3 * c3 * c1) / (c2 + w) ^ 2) by (field; lra). rewrite W. field. lra.
    - replace (2 * c2 + 6 * c3 * (- c1 / (c2 + w))) with (2 * (c2 ^ 2 - 3 * c3 * c1 + c2 * w) / (c2 + w)) by (field; lra). rewrite <- W.
      replace (2 * (w ^ 2 + c2 * w) / (c2 + w)) with (2 * w) by (field; lra). lra.
    - unfold extrap_step. rewrite Ew, b_cubic, d2_cubic, !two_R. cbn [nadd nsub nmul ndiv nopp nzero nonev NumR].
      replace (- c1 * ls_z3 st * ls_z3 st / (c2 * ls_z3 st ^ 2 + w * ls_z3 st ^ 2)) with (- c1 / (c2 + w)).
      2:{ assert (0 < ls_z3 st ^ 2) by (cbn [pow]; rewrite Rmult_1_r; apply Rsqr_pos_lt; exact Z). field. repeat split; try lra; try exact Z; nra. }
      repeat match goal with |- context [if ?b then _ else _] => destruct b end; auto.
  Qed.
  (** The parabola with the values and the slope at the far end. *)
  Theorem interp_parabola q0 q1 q2 : f1 < ls_f2 st -> 0 < q2 -> q0 = ls_f2 st -> q0 + q1 * ls_z3 st + q2 * ls_z3 st ^ 2 = ls_f3 st -> q1 + 2 * q2 * ls_z3 st = ls_d3 st ->
    q1 + 2 * q2 * interp_step f1 st = 0.
  Proof.
    clear H D. intros HF Q E0 E3 ED. unfold interp_step. destruct (nltb f1 (ls_f2 st)) eqn:E; [|exfalso; cbn in E; destruct (Rlt_dec f1 (ls_f2 st)); [discriminate|auto]]. cbv zeta.
    rewrite two_R. cbn [nadd nsub nmul ndiv nonev NumR]. rewrite <- E3, <- ED, <- E0.
    replace ((q1 + 2 * q2 * ls_z3 st) * ls_z3 st + q0 - (q0 + q1 * ls_z3 st + q2 * ls_z3 st ^ 2)) with (q2 * ls_z3 st ^ 2) by ring. field. split; [exact Z|lra].
  Qed.
End Poly.

(** ** The bracket shrinks *)
Theorem bracket (self : ConjugateGD X) i z3 z2 : cg_int self = Fin i -> 0 <= i <= 1 / 2 -> z3 <= 0 ->
  exists r, interp_clamp self (Fin z3) z2 = Fin r /\ (1 - i) * z3 <= r <= i * z3.
Proof.
  intros Ei Hi Hz. unfold interp_clamp. rewrite Ei, half_fin.
  change (nmul (nsub nonev (Fin i)) (Fin z3)) with (Fin ((1 + - i) * z3)). change (nmul (Fin i) (Fin z3)) with (Fin (i * z3)). cbv zeta.
  assert (Q : exists r, (if not_finite z2 then Fin (z3 / 2) else z2) = Fin r).
  { destruct (fin_cases z2) as [(r & ->)|H]; [eexists; reflexivity|]. rewrite H. eexists. reflexivity. }
  destruct Q as (r & ->). destruct (nleb (Fin r) (Fin (i * z3))) eqn:E1.
  - apply xle_fin in E1. destruct (nleb (Fin r) (Fin ((1 + - i) * z3))) eqn:E2.
    + eexists. split; [reflexivity|]. nra.
    + apply xle_fin_false in E2. eexists. split; [reflexivity|]. nra.
  - destruct (nleb (Fin (i * z3)) _) eqn:E2; [apply xle_fin in E2|]; eexists; (split; [reflexivity|]); nra.
Qed.

(** ** How far the extrapolation goes *)
Theorem extrap_bounds (self : ConjugateGD X) e i st z1 z3 l : cg_ext self = Fin e -> cg_int self = Fin i -> 0 <= i ->
  ls_z1 st = Fin z1 -> ls_z3 st = Fin z3 -> ls_limit st = Fin l ->
  exists r, extrap_step self st = Fin r /\
    (l < - (1 / 2) -> r = z1 * (e - 1) \/ r = - z3 * i \/ (- z3 * i <= r /\ 0 <= r <= z1 * (e - 1))) /\
    (- (1 / 2) < l -> z1 <= l -> r = (l - z1) / 2 \/ r = - z3 * i \/ (- z3 * i <= r /\ (l - z1) * (1 - i) <= r <= l - z1)).
Proof.
  intros Ee Ei Hi E1 E3 El. unfold extrap_step. rewrite E1, E3, El, Ee, Ei.
  assert (Em : @mhalf X NumXI = Fin (- (1 / 2))). { unfold mhalf. change (@nonev X NumXI) with (Fin 1). rewrite (half_fin 1). reflexivity. }
  rewrite Em. set (z2 := ndiv _ (nadd _ _)). clearbody z2.
  change (nmul (Fin z1) (nsub (Fin e) nonev)) with (Fin (z1 * (e + -1))). change (nsub (Fin l) (Fin z1)) with (Fin (l + - z1)). rewrite half_fin.
  change (nmul (Fin z1) (Fin e)) with (Fin (z1 * e)). change (nmul (nopp (Fin z3)) (Fin i)) with (Fin (- z3 * i)).
  change (nmul (Fin (l + - z1)) (nsub nonev (Fin i))) with (Fin ((l + - z1) * (1 + - i))). cbv zeta. change (@nzero X NumXI) with (Fin 0).
  destruct (not_finite z2 || nltb z2 (Fin 0))%bool eqn:B.
  - destruct (nltb (Fin l) (Fin (- (1 / 2)))) eqn:B1; eexists; (split; [reflexivity|]).
    + apply xlt_fin in B1. split; intros; [left; lra|lra].
    + apply xlt_fin_false in B1. split; intros; [lra|left; lra].
  - apply orb_false_iff in B. destruct B as (B0 & B1). destruct (fin_cases z2) as [(r & ->)|Q]; [|congruence]. apply xlt_fin_false in B1.
    change (nadd (Fin r) (Fin z1)) with (Fin (r + z1)).
    destruct (nltb (Fin (- (1 / 2))) (Fin l)) eqn:C1; destruct (nltb (Fin l) (Fin (- (1 / 2)))) eqn:C2;
      rewrite ?xlt_fin, ?xlt_fin_false in C1; rewrite ?xlt_fin, ?xlt_fin_false in C2; try lra; cbn [andb].
    + destruct (nltb (Fin l) (Fin (r + z1))) eqn:C3.
      { eexists. split; [reflexivity|]. split; intros; [lra|left; lra]. }
      apply xlt_fin_false in C3. destruct (nltb (Fin r) (Fin (- z3 * i))) eqn:C4.
      { eexists. split; [reflexivity|]. split; intros; [lra|right; left; lra]. }
      apply xlt_fin_false in C4. destruct (nltb (Fin r) (Fin ((l + - z1) * (1 + - i)))) eqn:C5; rewrite ?xlt_fin, ?xlt_fin_false in C5;
        eexists; (split; [reflexivity|]); (split; intros; [lra|right; right; nra]).
    + destruct (nltb (Fin (z1 * e)) (Fin (r + z1))) eqn:C3.
      { eexists. split; [reflexivity|]. split; intros; [left; lra|lra]. }
      apply xlt_fin_false in C3. destruct (nltb (Fin r) (Fin (- z3 * i))) eqn:C4.
      { eexists. split; [reflexivity|]. split; intros; [right; left; lra|lra]. }
      apply xlt_fin_false in C4. eexists. split; [reflexivity|]. split; intros; [right; right; lra|lra].
    + destruct (nltb (Fin r) (Fin (- z3 * i))); eexists; (split; [reflexivity|]); (split; intros; lra).
Qed.

(** ** The accepted steps *)
Section Steps.
  Variable self : ConjugateGD X.
  Hypothesis ok : sane self.
  Variable n : nat.
  Variable cost : list X -> res (X * list X).
  Variables (f : list R -> R) (g : list R -> list R).
  Hypothesis RC : real_cost n cost f g.
  Lemma rc_good : well_behaved n cost.
  Proof.
    intros x L (v & ->). rewrite map_length in L. destruct (RC v L) as [E Lg]. exists (Fin (f v)), (map Fin (g v)). split; [exact E|]. split; [discriminate|].
    split; [now rewrite map_length|exists (g v); reflexivity].
  Qed.
  Lemma along_fin x z s : vadd (map Fin x) (vscale (Fin z) (map Fin s)) = map Fin (along x z s).
  Proof. unfold vadd, vscale, along. revert s. induction x as [|a x IH]; intros [|b s]; try reflexivity. cbn [map map2]. rewrite IH. f_equal. cbn. f_equal. ring. Qed.
  Lemma along_along x z r s : along (along x z s) r s = along x (z + r) s.
  Proof. unfold along. revert s. induction x as [|a x IH]; intros [|b s]; try reflexivity. cbn [map2]. rewrite IH. f_equal. ring. Qed.
  Lemma along_length x z s : length x = n -> length s = n -> length (along x z s) = n.
  Proof. intros. unfold along. rewrite map2_length. lia. Qed.

  (** A search state on the line from [x] along [s]. *)
  Definition on_line (x s : list R) (st : Search X) : Prop :=
    exists z, ls_z1 st = Fin z /\ ls_x st = map Fin (along x z s) /\ ls_f2 st = Fin (f (along x z s)) /\ ls_df2 st = map Fin (g (along x z s)).
  Lemma move_line x s st r f3 d3 z3 l st' : length x = n -> length s = n -> on_line x s st -> move cost (map Fin s) st (Fin r) f3 d3 z3 l = Ok st' -> on_line x s st'.
  Proof.
    intros Lx Ls (z & E1 & Ex & _) H. unfold move in H. rewrite Ex in H.
    destruct (rvadd_fit n (map Fin (along x z s)) (vscale (Fin r) (map Fin s))) as (E & L); [rewrite map_length; now apply along_length|rewrite vscale_length, map_length; exact Ls|].
    rewrite E in H. cbn [rbind] in H. rewrite along_fin, along_along in H. destruct (RC (along x (z + r) s)) as [EC _]; [now apply along_length|].
    rewrite EC in H. cbn [rbind] in H. apply ok_inj in H. subst st'. exists (z + r). cbn [ls_z1 ls_x ls_f2 ls_df2]. rewrite E1. auto.
  Qed.
  Section Line.
    Variables (x s : list R) (f1 d1 : X).
    Hypothesis Lx : length x = n.
    Hypothesis Ls : length s = n.
    Let Ls' : length (map Fin s) = n. Proof. now rewrite map_length. Qed.
    Let Fs : all_fin (map Fin s). Proof. exists s. reflexivity. Qed.
    Lemma interp_line : forall m st st' m', ls_ok n cost (map Fin s) st -> on_line x s st -> interp_loop self cost f1 d1 (map Fin s) m st = Ok (st', m') -> on_line x s st'.
    Proof.
      induction m as [|m IH]; intros st st' m' H OL; cbn [interp_loop].
      - intros E. apply ok_inj in E. injection E as <- _. exact OL.
      - destruct (cg_bad _ _ _ _); [|intros E; apply ok_inj in E; injection E as <- _; exact OL].
        cbv zeta. destruct (H) as (_ & _ & _ & _ & (z1 & z3 & E1 & E3 & H1 & H3) & _). rewrite E3, E1.
        destruct (clamp_ok self ok z3 (interp_step f1 st)) as (r & Er & Hr). rewrite Er. change (nsub (Fin z3) (Fin r)) with (Fin (z3 + - r)).
        destruct (move_ok n cost rc_good (map Fin s) Ls' Fs st r (ls_f3 st) (ls_d3 st) (z3 + - r) z1 z1 H E1) as (st1 & E' & H' & I1); [destruct Hr; lra|lra|right; exact H1|].
        rewrite E'. cbn [rbind]. apply IH; auto. exact (move_line _ _ _ _ _ _ _ _ _ Lx Ls OL E').
    Qed.
    Lemma search_line : forall fuel m st st' b, (m < fuel)%nat -> ls_ok n cost (map Fin s) st -> on_line x s st -> search_loop self cost f1 d1 (map Fin s) fuel m st = Ok (st', b) -> on_line x s st'.
    Proof.
      induction fuel as [|fuel IH]; intros m st st' b Hf H OL; [lia|]. cbn [search_loop].
      destruct (interp_ok self ok n cost rc_good f1 d1 (map Fin s) Ls' Fs m st H) as (st1 & m1 & E & H1 & Hm & I1). rewrite E. cbn [rbind].
      pose proof (interp_line m st st1 m1 H OL E) as OL1.
      destruct (cg_bad _ _ _ _); [intros Q; apply ok_inj in Q; injection Q as <- _; exact OL1|].
      destruct (nltb _ _); [intros Q; apply ok_inj in Q; injection Q as <- _; exact OL1|].
      destruct m1 as [|m1]; [intros Q; apply ok_inj in Q; injection Q as <- _; exact OL1|]. cbv zeta.
      destruct (H1) as (_ & _ & _ & _ & (z1 & z3 & E1 & E3 & P1 & P3) & (l & El & Hl) & _).
      destruct (extrap_ok self ok n cost (map Fin s) st1 H1 z1 E1) as (r & Er & Hr). rewrite Er, El. change (nopp (Fin r)) with (Fin (- r)).
      destruct (move_ok n cost rc_good (map Fin s) Ls' Fs st1 r (ls_f2 st1) (ls_d2 st1) (- r) l z1 H1 E1 Hr) as (st2 & E2 & H2 & I2); [lra|exact Hl|].
      rewrite E2. cbn [rbind]. apply IH; auto; [lia|]. exact (move_line _ _ _ _ _ _ _ _ _ Lx Ls OL1 E2).
    Qed.
  End Line.

  Variables (rho sig : R).
  Hypothesis Er : cg_rho self = Fin rho.
  Hypothesis Es : cg_sig self = Fin sig.
  (** A round at the point [x]. *)
  Definition at_point (x : list R) (st : Round X) : Prop :=
    length x = n /\ rd_x st = map Fin x /\ rd_f1 st = Fin (f x) /\ exists s d, rd_s st = map Fin s /\ rd_d1 st = Fin d /\
      (d = inner n (g x) s \/ exists y, length y = n /\ s = map Ropp (g y) /\ d = - inner n s s).
  Lemma wolfe_of x s d ls z : length x = n -> length s = n -> d <= 0 -> ls_z1 ls = Fin z -> 0 <= z -> ls_f2 ls = Fin (f (along x z s)) -> ls_d2 ls = dot (map Fin (g (along x z s))) (map Fin s) ->
    cg_bad self (Fin (f x)) (Fin d) ls = false -> nltb (nmul (cg_sig self) (Fin d)) (ls_d2 ls) = true -> wolfe n f g rho sig x s d z (along x z s).
  Proof.
    intros Lx Ls Hd Ez Hz Ef Ed HB HS. rewrite dot_fin in Ed. unfold cg_bad in HB. rewrite Ez, Er, Es, Ed, Ef in HB. rewrite Es, Ed in HS.
    apply orb_false_iff in HB. destruct HB as (HB1 & HB2).
    change (nadd (Fin (f x)) (nmul (nmul (Fin z) (Fin rho)) (Fin d))) with (Fin (f x + z * rho * d)) in HB1. change (nmul (nopp (Fin sig)) (Fin d)) with (Fin (- sig * d)) in HB2.
    change (nmul (Fin sig) (Fin d)) with (Fin (sig * d)) in HS. apply xlt_fin in HS. apply xlt_fin_false in HB1, HB2.
    assert (La : length (along x z s) = n) by (now apply along_length). destruct (RC _ La) as [_ Lg].
    rewrite (Proof_KerInv.dot_inner n) in HS, HB2 by auto. repeat split; auto; lra.
  Qed.
  Lemma accept_point f0 st ls st1 y : rd_ok n cost f0 st1 -> accept self st ls = Ok st1 -> length y = n -> ls_x ls = map Fin y -> ls_f2 ls = Fin (f y) -> ls_df2 ls = map Fin (g y) -> at_point y st1.
  Proof.
    intros H1 E1 La Exl Efl Edl. destruct (RC _ La) as [_ Lg]. destruct H1 as ((_ & _ & Hs1 & _) & _ & _ & _ & (df1 & s1 & d1 & zz & G1 & G2 & G3 & _ & _ & _ & G4)).
    revert E1. unfold accept. cbv zeta. destruct (rvsub _ _) as [v| |]; cbn [rbind]; try discriminate. destruct (rvsub _ _) as [v2| |]; cbn [rbind]; try discriminate. intros Q. apply ok_inj in Q. subst st1. cbn [rd_x rd_f1 rd_df1 rd_s rd_d1] in *.
    split; [exact La|]. split; [exact Exl|]. split; [exact Efl|]. exists s1, d1. split; [exact G2|]. split; [exact G3|]. left.
    assert (df1 = g y). { rewrite Edl in G1. revert G1. generalize (g y). clear. intros l. revert df1. induction l as [|a l IH]; intros [|c df1]; try discriminate; auto. cbn. intros Q. injection Q as -> Q. f_equal. now apply IH. }
    subst df1. rewrite G4. apply Proof_KerInv.dot_inner; auto. rewrite G2, map_length in Hs1. exact Hs1.
  Qed.
  Lemma loop_steps f0 : forall k st x, rd_ok n cost f0 st -> at_point x st -> exists st' x' j, cg_loop self cost k st = Ok st' /\ rd_x st' = map Fin x' /\ length x' = n /\ (j <= k)%nat /\
    steps (cg_step n f g rho sig) j x x'.
  Proof.
    induction k as [|k IH]; intros st x H AP; cbn [cg_loop].
    - exists st, x, 0%nat. destruct AP as (Lx & Ex & _). repeat split; auto. constructor.
    - destruct (start_ok n cost rc_good f0 st H) as (ls & E & Hl & Il). rewrite E. cbn [rbind].
      destruct (AP) as (Lx & Ex & Ef & (s & d & Ess & Ed & Hsd)).
      destruct (H) as ((Hx & Hd & Hs & Hc & Hin) & Fx & Nf & Hm & (df & s0 & d0 & z0 & Edf & Es0 & Ed0 & Ez0 & Hz0 & Hn & Edot)).
      assert (Ed' : d0 = d) by (rewrite Ed in Ed0; congruence). rewrite Ed' in Hn, Edot. assert (Ls : length s = n) by (rewrite Ess, map_length in Hs; exact Hs).
      destruct (search_ok self ok n cost rc_good (rd_f1 st) (rd_d1 st) (rd_s st) Hs ltac:(exists s; exact Ess) (S (cg_max self)) (cg_max self) ls ltac:(lia) Hl) as (ls' & b & E' & Hl' & Il' & HB).
      assert (OL : on_line x s ls).
      { unfold search_start in E. rewrite Ex, Ess, Ez0 in E. destruct (rvadd_fit n (map Fin x) (vscale (Fin z0) (map Fin s))) as (E2 & L2); [now rewrite map_length|rewrite vscale_length, map_length; exact Ls|].
        rewrite E2 in E. cbn [rbind] in E. rewrite along_fin in E. destruct (RC (along x z0 s)) as [EC _]; [now apply along_length|]. rewrite EC in E. cbn [rbind] in E. apply ok_inj in E. subst ls.
        exists z0. cbn [ls_z1 ls_x ls_f2 ls_df2]. auto. }
      rewrite Ess in E', Hl. assert (OL' : on_line x s ls') by (apply (search_line x s (rd_f1 st) (rd_d1 st) Lx Ls (S (cg_max self)) (cg_max self) ls ls' b ltac:(lia) Hl OL E')).
      rewrite Ess, E'. cbn [rbind]. destruct b.
      + destruct (HB eq_refl) as (B1 & B2). destruct (accept_ok self ok n cost f0 st ls' H Hl' B1 B2) as (st1 & E1 & H1). rewrite E1. cbn [rbind].
        destruct OL' as (z & Ez & Exl & Efl & Edl). destruct Hl' as (LF & _ & _ & _ & (z1 & z3 & Ez1 & _ & Pz & _) & _ & Ed2). rewrite Ez in Ez1. injection Ez1 as <-. rewrite Edl, Ess in Ed2.
        rewrite Ef, Ed in B1. rewrite Ed in B2. pose proof (wolfe_of x s d ls' z Lx Ls Hn Ez Pz Efl Ed2 B1 B2) as W.
        pose proof (accept_point f0 st ls' st1 (along x z s) H1 E1 ltac:(now apply along_length) Exl Efl Edl) as AP1.
        destruct (IH st1 _ H1 AP1) as (st' & x' & j & C1 & C2 & C3 & C4 & C5). exists st', x', (S j). split; [exact C1|]. split; [exact C2|]. split; [exact C3|]. split; [lia|].
        econstructor; [|exact C5]. exists s, d, z. split; [exact W|]. exact Hsd.
      + destruct (rd_failed st || (cg_iters self <? cg_iters self - k)%nat)%bool.
        * eexists _, x, 0%nat. split; [reflexivity|]. cbn [rd_x]. split; [exact Ex|]. split; [exact Lx|]. split; [lia|]. constructor.
        * assert (HR : rd_ok n cost f0 (reject st ls')) by (apply (reject_ok n cost f0 st ls' H Hl'); eapply incl_tran; eauto).
          destruct OL' as (z & Ez & Exl & Efl & Edl). assert (La : length (along x z s) = n) by (now apply along_length). destruct (RC _ La) as [_ Lg].
          assert (AP1 : at_point x (reject st ls')).
          { split; [exact Lx|]. split; [exact Ex|]. split; [exact Ef|]. unfold reject. cbn [rd_s rd_d1]. rewrite Edl.
            assert (EO : forall l, map nopp (map Fin l) = map Fin (map Ropp l)) by (intros l; rewrite !map_map; reflexivity). rewrite EO, dot_fin.
            exists (map Ropp (g (along x z s))), (- dot (map Ropp (g (along x z s))) (map Ropp (g (along x z s)))). split; [reflexivity|]. split; [reflexivity|].
            right. exists (along x z s). split; [exact La|]. split; [reflexivity|]. rewrite (Proof_KerInv.dot_inner n) by (now rewrite map_length). reflexivity. }
          destruct (IH _ _ HR AP1) as (st' & x' & j & C1 & C2 & C3 & C4 & C5). exists st', x', j. split; [exact C1|]. split; [exact C2|]. split; [exact C3|]. split; [lia|exact C5].
  Qed.
  Theorem optimize_steps start : length start = n -> exists x k, cg_optimize self cost (map Fin start) = Ok (map Fin x) /\ length x = n /\ (k <= cg_iters self)%nat /\
    steps (cg_step n f g rho sig) k start x.
  Proof.
    intros L. unfold cg_optimize, cg_run, cg_start. destruct (RC start L) as [E Lg]. rewrite E. cbn [rbind]. cbv zeta.
    destruct (fresh_ok (g start)) as (d & z & E1 & D1 & D2 & E2 & Hz). rewrite E1, E2.
    match goal with |- context [cg_loop self cost _ ?s0] => destruct (loop_steps (Fin (f start)) (cg_iters self) s0 start) as (st & x & k & C1 & C2 & C3 & C4 & C5) end.
    - split; [|split; [exists start; reflexivity|split; [discriminate|split; [apply at_most_refl; discriminate|]]]].
      + split; [cbn; now rewrite map_length|]. split; [cbn; now rewrite map_length|]. split; [cbn; now rewrite !map_length|]. split; [eexists; exact E|left; reflexivity].
      + exists (g start), (map Ropp (g start)), d, z. cbn [rd_df1 rd_s rd_d1 rd_z1]. split; [reflexivity|]. split; [rewrite !map_map; reflexivity|]. auto.
    - split; [exact L|]. split; [reflexivity|]. split; [reflexivity|]. exists (map Ropp (g start)), d. cbn [rd_s rd_d1]. split; [rewrite !map_map; reflexivity|]. split; [reflexivity|].
      left. rewrite D2. apply Proof_KerInv.dot_inner; auto. now rewrite map_length.
    - rewrite C1. cbn [rbind]. rewrite C2. exists x, k. auto.
  Qed.
  (** A first trial point that meets the conditions is accepted. *)
  Theorem optimize_progress start z : length start = n -> (0 < cg_iters self)%nat -> z = 1 / (1 + inner n (g start) (g start)) ->
    let s := map Ropp (g start) in wolfe n f g rho sig start s (inner n (g start) s) z (along start z s) ->
    exists x k, cg_optimize self cost (map Fin start) = Ok (map Fin x) /\ length x = n /\ (k < cg_iters self)%nat /\ steps (cg_step n f g rho sig) k (along start z s) x.
  Proof.
    intros L HI Ez s W. unfold cg_optimize, cg_run, cg_start. destruct (RC start L) as [E Lg]. rewrite E. cbn [rbind]. cbv zeta.
    destruct (fresh_ok (g start)) as (d & z0 & E1 & D1 & D2 & E2 & Hz). rewrite E1.
    assert (Ls : length s = n) by (unfold s; now rewrite map_length).
    assert (Ed : d = inner n (g start) s) by (rewrite D2; now apply Proof_KerInv.dot_inner).
    assert (Eo : inner n (g start) s = - inner n (g start) (g start)).
    { unfold inner, s. match goal with |- _ = - ?t => replace (- t) with (-1 * t) by ring end. rewrite <- sumR_scal. apply sumR_ext. intros i Hi. rewrite (nth_map Ropp _ _ _ 0) by lia. ring. }
    assert (N : 0 <= inner n (g start) (g start)) by (unfold inner; apply sumR_ge0; intros; nra).
    assert (E2' : z0 = z). { rewrite Ed, Eo in E2. cbn -[Rdiv] in E2. destruct (Req_EM_T _ 0) as [Q|Q] in E2; [lra|]. injection E2 as <-. rewrite Ez. f_equal. ring. }
    rewrite E2. subst z0. replace (map nopp (map Fin (g start))) with (map Fin s) by (unfold s; rewrite !map_map; reflexivity).
    destruct (cg_iters self) as [|k] eqn:EI; [lia|]. cbn [cg_loop]. match goal with |- context [search_start cost ?q] => set (st0 := q) end.
    assert (H0 : rd_ok n cost (Fin (f start)) st0).
    { split; [|split; [exists start; reflexivity|split; [discriminate|split; [apply at_most_refl; discriminate|]]]].
      + split; [cbn; now rewrite map_length|]. split; [cbn; now rewrite map_length|]. split; [cbn; now rewrite !map_length|]. split; [eexists; exact E|left; reflexivity].
      + exists (g start), s, d, z. cbn [rd_df1 rd_s rd_d1 rd_z1 st0]. split; [reflexivity|]. split; [reflexivity|]. auto. }
    destruct (start_ok n cost rc_good _ st0 H0) as (ls & Els & Hl & Il). rewrite Els. cbn [rbind].
    assert (OL : ls_x ls = map Fin (along start z s) /\ ls_z1 ls = Fin z /\ ls_f2 ls = Fin (f (along start z s)) /\ ls_df2 ls = map Fin (g (along start z s))).
    { unfold search_start in Els. cbn [st0 rd_x rd_s rd_z1] in Els. destruct (rvadd_fit n (map Fin start) (vscale (Fin z) (map Fin s))) as (E3 & L3); [now rewrite map_length|rewrite vscale_length, map_length; exact Ls|].
      rewrite E3 in Els. cbn [rbind] in Els. rewrite along_fin in Els. destruct (RC (along start z s)) as [EC _]; [now apply along_length|]. rewrite EC in Els. cbn [rbind] in Els. apply ok_inj in Els. subst ls. cbn. auto. }
    destruct OL as (O1 & O2 & O3 & O4). destruct (Hl) as (_ & _ & _ & _ & _ & _ & Ed2). cbn [st0 rd_s] in Ed2. rewrite O4, dot_fin in Ed2.
    assert (La : length (along start z s) = n) by (now apply along_length). destruct (RC _ La) as [_ Lga]. rewrite (Proof_KerInv.dot_inner n) in Ed2 by auto.
    destruct W as (_ & Pz & Nd & _ & W1 & W2 & W3). rewrite <- Ed in W1, W2, W3.
    assert (B1 : cg_bad self (rd_f1 st0) (rd_d1 st0) ls = false).
    { unfold cg_bad. rewrite O2, O3, Ed2, Er, Es. cbn [st0 rd_f1 rd_d1]. apply orb_false_iff. split; apply xlt_fin_false; cbn; lra. }
    assert (B2 : nltb (nmul (cg_sig self) (rd_d1 st0)) (ls_d2 ls) = true) by (rewrite Es, Ed2; cbn [st0 rd_d1]; apply xlt_fin; cbn; lra).
    assert (SL : search_loop self cost (rd_f1 st0) (rd_d1 st0) (rd_s st0) (S (cg_max self)) (cg_max self) ls = Ok (ls, true)).
    { cbn [search_loop]. replace (interp_loop _ _ _ _ _ (cg_max self) ls) with (Ok (ls, cg_max self) : res (Search X * nat)) by (destruct (cg_max self); [reflexivity|]; cbn [interp_loop]; rewrite B1; reflexivity).
      cbn [rbind]. rewrite B1, B2. reflexivity. }
    rewrite SL. cbn [rbind]. destruct (accept_ok self ok n cost _ st0 ls H0 Hl B1 B2) as (st1 & E3 & H1). rewrite E3. cbn [rbind].
    destruct (loop_steps (Fin (f start)) k st1 _ H1 (accept_point _ st0 ls st1 (along start z s) H1 E3 La O1 O3 O4)) as (st & x & j & C1 & C2 & C3 & C4 & C5).
    rewrite C1. cbn [rbind]. rewrite C2. exists x, j. split; [reflexivity|]. split; [exact C3|]. split; [lia|exact C5].
  Qed.
End Steps.
