(** Optimisers under rigid changes of the parameters. *)
From Coq Require Import List Arith Lia Bool Reals Lra Permutation FunctionalExtensionality.
From Verif Require Import Base BaseLemmas Num NumFn Linalg LinalgR Spec_Calc CalcR MatR Proof_KMeans Model_Optim Proof_Optim Model_CG
  Spec_KerInv Proof_KerInv Spec_OptEq.
Import ListNotations.
Local Open Scope R_scope.

Lemma rvadd_eq' (a b : list R) : length a = length b -> rvadd a b = Ok (vadd a b).
Proof. intros E. unfold rvadd, rassert. now rewrite E, Nat.eqb_refl. Qed.
Lemma rvsub_eq' (a b : list R) : length a = length b -> rvsub a b = Ok (vsub a b).
Proof. intros E. unfold rvsub, rassert. now rewrite E, Nat.eqb_refl. Qed.

(** Maps that keep inner products are linear. *)
Section Rigid.
  Variables (n n' : nat) (T : list R -> list R).
  Hypothesis HT : rigid n n' T.

  Lemma rig_len a : length a = n -> length (T a) = n'.
  Proof. intros La. apply (HT a a La La). Qed.
  Lemma rig_dot a b : length a = n -> length b = n -> dot (T a) (T b) = dot a b.
  Proof. intros La Lb. rewrite (dot_inner n'), (dot_inner n); auto using rig_len. apply (HT a b La Lb). Qed.
  Lemma zero_dot (u v : list R) : length u = n' -> length v = n' -> dot (vsub u v) (vsub u v) = 0 -> u = v.
  Proof.
    intros Lu Lv E. assert (L : length (vsub u v) = n') by (unfold vsub; rewrite map2_length; lia).
    rewrite (dot_sumR n') in E by auto. apply vec_ext; [lia|]. intros i Hi. rewrite Lu in Hi.
    pose proof (Proof_KMeans3.sumR_zero_inv n' _ (fun i _ => Rle_0_sqr _) E i Hi) as K. cbv beta in K.
    unfold vsub in K. rewrite (map2_nth nsub _ _ i 0 0 0) in K by lia. cbn [nsub NumR] in K. apply Rsqr_0_uniq in K. lra.
  Qed.
  Lemma dot_lin (u v w : list R) (a b : R) : length u = length v -> dot (map2 (fun x y => a * x + b * y) u v) w = a * dot u w + b * dot v w.
  Proof.
    revert v w. induction u as [|x u IH]; intros [|y v] [|z w] L; try discriminate; cbn [map2]; rewrite ?dot_nil_l, ?dot_nil_r; try (cbn; lra).
    rewrite !dot_cons, IH by (injection L; auto). ring.
  Qed.
  Lemma rig_lin u v a b : length u = n -> length v = n ->
    T (map2 (fun x y => a * x + b * y) u v) = map2 (fun x y => a * x + b * y) (T u) (T v).
  Proof.
    intros Lu Lv. assert (L : length (map2 (fun x y => a * x + b * y) u v) = n) by (rewrite map2_length; lia).
    assert (L' : length (map2 (fun x y => a * x + b * y) (T u) (T v)) = n') by (rewrite map2_length, !rig_len; auto; lia).
    apply zero_dot; auto using rig_len.
    set (s := map2 _ u v) in *. set (t := map2 _ (T u) (T v)) in *.
    assert (E : forall p q : list R, length p = length q -> dot (vsub p q) (vsub p q) = dot p p - 2 * dot p q + dot q q).
    { intros p q Lpq. rewrite (dist_inner (length q)) by auto. rewrite <- !dot_inner by auto. ring. }
    rewrite E by (rewrite rig_len; auto; lia).
    rewrite rig_dot by auto. rewrite (dot_comm (T s) t). unfold t at 1 2. rewrite !dot_lin by (rewrite !rig_len; auto).
    rewrite !rig_dot by auto. unfold t. rewrite (dot_comm (T u) (map2 _ _ _)), (dot_comm (T v) (map2 _ _ _)), !dot_lin by (rewrite !rig_len; auto).
    rewrite !rig_dot by auto. unfold s. rewrite dot_lin by lia. rewrite (dot_comm u (map2 _ _ _)), (dot_comm v (map2 _ _ _)), !dot_lin by lia.
    rewrite (dot_comm v u). ring.
  Qed.
  Lemma map2_lin_eq (f : R -> R -> R) a b (u v : list R) : (forall x y, f x y = a * x + b * y) -> map2 f u v = map2 (fun x y => a * x + b * y) u v.
  Proof. intros H. revert v. induction u as [|x u IH]; intros [|y v]; [reflexivity..|]. cbn [map2]. now rewrite H, IH. Qed.
  Lemma rig_map2 f a b u v : (forall x y, f x y = a * x + b * y) -> length u = n -> length v = n -> T (map2 f u v) = map2 f (T u) (T v).
  Proof. intros H Lu Lv. rewrite (map2_lin_eq f a b u v H), (map2_lin_eq f a b (T u) (T v) H). now apply rig_lin. Qed.
  Lemma rig_vsub u v : length u = n -> length v = n -> T (vsub u v) = vsub (T u) (T v).
  Proof. apply (rig_map2 nsub 1 (-1)). intros. cbn. ring. Qed.
  Lemma rig_vadd u v : length u = n -> length v = n -> T (vadd u v) = vadd (T u) (T v).
  Proof. apply (rig_map2 nadd 1 1). intros. cbn. ring. Qed.
  Lemma map_map2_self {A B} (f : A -> B) (l : list A) : map f l = map2 (fun x _ => f x) l l.
  Proof. induction l as [|x l IH]; [reflexivity|]. cbn [map map2]. now rewrite IH. Qed.
  Lemma rig_map f c u : (forall x, f x = c * x) -> length u = n -> T (map f u) = map f (T u).
  Proof. intros H Lu. rewrite !map_map2_self. apply (rig_map2 (fun x _ => f x) c 0); auto. intros. rewrite H. ring. Qed.
  Lemma rig_vscale c u : length u = n -> T (vscale c u) = vscale c (T u).
  Proof. apply (rig_map (fun x => nmul x c) c). intros. cbn. ring. Qed.
  Lemma rig_opp u : length u = n -> T (map nopp u) = map nopp (T u).
  Proof. apply (rig_map nopp (-1)). intros. cbn. ring. Qed.
  Lemma rig_div c u : length u = n -> T (map (fun x => x / c) u) = map (fun x => x / c) (T u).
  Proof. apply (rig_map (fun x => x / c) (/ c)). intros. unfold Rdiv. ring. Qed.

  (** Gradient descent. *)
  Variables (cg cg' : list R -> res (R * list R)).
  Hypothesis Hcg : forall w, length w = n -> exists c g, cg w = Ok (c, g) /\ length g = n /\ cg' (T w) = Ok (c, T g).

  Lemma gd_loop_rigid alpha : forall k x prev, length x = n ->
    exists w, gd_loop alpha cg k x prev = Ok w /\ length w = n /\ gd_loop alpha cg' k (T x) prev = Ok (T w).
  Proof.
    induction k as [|k IH]; intros x prev Lx; [exists x; auto|].
    cbn [gd_loop]. destruct (Hcg x Lx) as (c & g & E & Lg & E'). rewrite E, E'. cbn [rbind].
    destruct (nltb _ _); [exists x; auto|].
    assert (L1 : length (vscale alpha g) = n) by (rewrite vscale_length; auto).
    assert (L2 : length (vsub x (vscale alpha g)) = n) by (rewrite vsub_len; auto; lia).
    rewrite rvsub_eq' by (unfold vscale; rewrite map_length; lia). cbn [rbind].
    rewrite rvsub_eq' by (unfold vscale; rewrite map_length, !rig_len; auto). cbn [rbind].
    rewrite <- rig_vscale, <- rig_vsub by auto. apply IH, L2.
  Qed.
  Theorem gd_rigid self start : length start = n ->
    exists w, gd_optimize self cg start = Ok w /\ length w = n /\ gd_optimize self cg' (T start) = Ok (T w).
  Proof. apply gd_loop_rigid. Qed.

  (** Conjugate gradients. *)
  Definition Tls (st : Search R) : Search R :=
    {| ls_x := T (ls_x st); ls_z1 := ls_z1 st; ls_f2 := ls_f2 st; ls_df2 := T (ls_df2 st); ls_d2 := ls_d2 st; ls_f3 := ls_f3 st; ls_d3 := ls_d3 st;
       ls_z3 := ls_z3 st; ls_limit := ls_limit st; ls_calls := map T (ls_calls st) |}.
  Definition Trd (st : Round R) : Round R :=
    {| rd_x := T (rd_x st); rd_f1 := rd_f1 st; rd_df1 := T (rd_df1 st); rd_s := T (rd_s st); rd_d1 := rd_d1 st; rd_z1 := rd_z1 st;
       rd_failed := rd_failed st; rd_calls := map T (rd_calls st) |}.
  Definition okls (st : Search R) : Prop := length (ls_x st) = n /\ length (ls_df2 st) = n.
  Definition okrd (st : Round R) : Prop := length (rd_x st) = n /\ length (rd_df1 st) = n /\ length (rd_s st) = n.
  Lemma vadd_len' (u v : list R) : length u = n -> length v = n -> length (vadd u v) = n.
  Proof. intros. unfold vadd. rewrite map2_length. lia. Qed.
  Lemma vsub_lenn (u v : list R) : length u = n -> length v = n -> length (vsub u v) = n.
  Proof. intros. unfold vsub. rewrite map2_length. lia. Qed.

  Lemma move_rigid (s : list R) st z2 f3 d3 z3 limit : length s = n -> okls st -> exists st', move cg s st z2 f3 d3 z3 limit = Ok st' /\ okls st' /\
    move cg' (T s) (Tls st) z2 f3 d3 z3 limit = Ok (Tls st').
  Proof.
    intros Ls (L1 & L2). unfold move. cbn [Tls ls_x ls_z1 ls_calls].
    assert (Lv : length (vscale z2 s) = n) by (rewrite vscale_length; auto).
    rewrite rvadd_eq' by lia. cbn [rbind]. rewrite rvadd_eq' by (rewrite vscale_length, !rig_len; auto). cbn [rbind].
    rewrite <- rig_vscale, <- rig_vadd by auto. pose proof (vadd_len' _ _ L1 Lv) as Lx.
    destruct (Hcg _ Lx) as (c & g & E & Lg & E'). rewrite E, E'. cbn [rbind]. rewrite rig_dot by auto.
    eexists. split; [reflexivity|]. split; [split; assumption|reflexivity].
  Qed.
  Section Line.
    Variables (self : ConjugateGD R) (f1 d1 : R) (s : list R).
    Hypothesis Ls : length s = n.
    Lemma interp_rigid : forall m st, okls st -> exists st' m', interp_loop self cg f1 d1 s m st = Ok (st', m') /\ okls st' /\
      interp_loop self cg' f1 d1 (T s) m (Tls st) = Ok (Tls st', m').
    Proof.
      induction m as [|m IH]; intros st H; [exists st, 0%nat; auto|]. cbn [interp_loop].
      change (cg_bad self f1 d1 (Tls st)) with (cg_bad self f1 d1 st). destruct (cg_bad self f1 d1 st).
      - change (interp_step f1 (Tls st)) with (interp_step f1 st). cbn [Tls ls_z3 ls_f3 ls_d3 ls_z1].
        destruct (move_rigid s st (interp_clamp self (ls_z3 st) (interp_step f1 st)) (ls_f3 st) (ls_d3 st)
          (nsub (ls_z3 st) (interp_clamp self (ls_z3 st) (interp_step f1 st))) (ls_z1 st) Ls H) as (st' & E & H' & E').
        rewrite E. first [rewrite E' | unfold Tls at 1 in E'; rewrite E']. cbn [rbind]. apply IH, H'.
      - exists st, (S m). auto.
    Qed.
    Lemma search_rigid : forall fuel m st, okls st -> exists r, search_loop self cg f1 d1 s fuel m st = r /\
      (forall st' b, r = Ok (st', b) -> okls st') /\
      search_loop self cg' f1 d1 (T s) fuel m (Tls st) = (let? (st', b) := r in Ok (Tls st', b)).
    Proof.
      induction fuel as [|fuel IH]; intros m st H; [exists Panic; split; [reflexivity|split; [discriminate|reflexivity]]|].
      cbn [search_loop]. destruct (interp_rigid m st H) as (st' & m' & E & H' & E'). rewrite E, E'. cbn [rbind].
      change (cg_bad self f1 d1 (Tls st')) with (cg_bad self f1 d1 st'). destruct (cg_bad self f1 d1 st').
      { eexists. split; [reflexivity|]. split; [intros ? ? K; injection K as <- _; exact H'|reflexivity]. }
      cbn [Tls ls_d2]. destruct (nltb (nmul (cg_sig self) d1) (ls_d2 st')).
      { eexists. split; [reflexivity|]. split; [intros ? ? K; injection K as <- _; exact H'|reflexivity]. }
      destruct m' as [|m'].
      { eexists. split; [reflexivity|]. split; [intros ? ? K; injection K as <- _; exact H'|reflexivity]. }
      change (extrap_step self (Tls st')) with (extrap_step self st'). cbn [ls_f2 ls_limit].
      destruct (move_rigid s st' (extrap_step self st') (ls_f2 st') (ls_d2 st') (nopp (extrap_step self st')) (ls_limit st') Ls H') as (st2 & E2 & H2 & E2').
      rewrite E2. change (ls_f2 (Tls st')) with (ls_f2 st'). change (ls_limit (Tls st')) with (ls_limit st'). rewrite E2'. cbn [rbind]. apply IH, H2.
    Qed.
  End Line.

  Lemma accept_rigid self st ls : okrd st -> okls ls -> exists st', accept self st ls = Ok st' /\ okrd st' /\ accept self (Trd st) (Tls ls) = Ok (Trd st').
  Proof.
    intros (H1 & H2 & H3) (H4 & H5). unfold accept, Trd, Tls. cbn [ rd_x rd_f1 rd_df1 rd_s rd_d1 rd_z1 rd_failed rd_calls ls_x ls_z1 ls_f2 ls_df2 ls_calls].
    pose proof (vsub_lenn _ _ H5 H2) as Ld.
    rewrite (rvsub_eq' (ls_df2 ls)) by lia. cbn [rbind]. rewrite (rvsub_eq' (T (ls_df2 ls)) (T (rd_df1 st))) by (rewrite !rig_len; auto). cbn [rbind]. rewrite <- rig_vsub, !rig_dot by auto.
    set (k := dot (vsub (ls_df2 ls) (rd_df1 st)) (ls_df2 ls)). set (q := dot (rd_df1 st) (rd_df1 st)).
    assert (Lv : length (vscale k (rd_s st)) = n) by (rewrite vscale_length; auto).
    assert (Lm : length (map (fun x => ndiv x q) (vscale k (rd_s st))) = n) by (rewrite map_length; auto).
    rewrite rvsub_eq' by lia. cbn [rbind]. rewrite rvsub_eq' by (rewrite map_length, vscale_length, !rig_len; auto). cbn [rbind].
    change (@ndiv R NumR) with Rdiv in *. rewrite <- rig_vscale, <- rig_div, <- rig_vsub by auto.
    set (s := vsub (map (fun x => x / q) (vscale k (rd_s st))) (ls_df2 ls)).
    assert (Lss : length s = n) by (apply vsub_lenn; auto). rewrite rig_dot by auto.
    destruct (nltb nzero (dot (ls_df2 ls) s)).
    - rewrite <- rig_opp by auto. assert (Lo : length (map nopp (ls_df2 ls)) = n) by (rewrite map_length; auto).
      rewrite rig_dot by auto. eexists. split; [reflexivity|]. split; [|reflexivity]. repeat split; auto.
    - eexists. split; [reflexivity|]. split; [|reflexivity]. repeat split; auto.
  Qed.
  Lemma reject_rigid st ls : okrd st -> okls ls -> okrd (reject st ls) /\ reject (Trd st) (Tls ls) = Trd (reject st ls).
  Proof.
    intros (H1 & H2 & H3) (H4 & H5). assert (Lo : length (map nopp (ls_df2 ls)) = n) by (rewrite map_length; auto).
    split; [repeat split; auto|]. unfold reject, Trd, Tls. cbn [ls_df2 rd_x rd_f1 ls_calls rd_df1 rd_s rd_d1 rd_z1 rd_failed rd_calls]. rewrite <- (rig_opp (ls_df2 ls)), rig_dot by auto. reflexivity.
  Qed.
  Lemma cg_loop_rigid self : forall k st, okrd st -> exists r, cg_loop self cg k st = r /\ (forall st', r = Ok st' -> okrd st') /\
    cg_loop self cg' k (Trd st) = (let? st' := r in Ok (Trd st')).
  Proof.
    induction k as [|k IH]; intros st H; [exists (Ok st); split; [reflexivity|]; split; [intros ? K; injection K as <-; auto|reflexivity]|].
    cbn [cg_loop]. destruct H as (H1 & H2 & H3).
    assert (Lv : length (vscale (rd_z1 st) (rd_s st)) = n) by (rewrite vscale_length; auto).
    assert (SS : exists ls, search_start cg st = Ok ls /\ okls ls /\ search_start cg' (Trd st) = Ok (Tls ls)).
    { unfold search_start, Trd. cbn [rd_x rd_z1 rd_s rd_f1 rd_d1 rd_calls]. rewrite rvadd_eq' by lia. cbn [rbind].
      rewrite rvadd_eq' by (rewrite vscale_length, !rig_len; auto). cbn [rbind]. rewrite <- rig_vscale, <- rig_vadd by auto.
      pose proof (vadd_len' _ _ H1 Lv) as Lx. destruct (Hcg _ Lx) as (c & g & E & Lg & E'). rewrite E, E'. cbn [rbind]. rewrite rig_dot by auto.
      eexists. split; [reflexivity|]. split; [split; assumption|reflexivity]. }
    destruct SS as (ls & E & Hls & E'). rewrite E, E'. cbn [rbind]. cbn [Trd rd_f1 rd_d1 rd_s].
    destruct (search_rigid self (rd_f1 st) (rd_d1 st) (rd_s st) H3 (S (cg_max self)) (cg_max self) ls Hls) as (r & Er & Hr & Er').
    rewrite Er, Er'. destruct r as [(ls2 & b)|e|]; cbn [rbind].
    - specialize (Hr _ _ eq_refl). destruct b.
      + destruct (accept_rigid self st ls2) as (st2 & Ea & Ha & Ea'); [repeat split; auto|auto|]. rewrite Ea. first [rewrite Ea' | unfold Trd at 1 in Ea'; rewrite Ea']. cbn [rbind]. apply IH, Ha.
      + change (rd_failed (Trd st)) with (rd_failed st). destruct (rd_failed st || (cg_iters self <? cg_iters self - k)%nat).
        * eexists. split; [reflexivity|]. split; [intros ? K; injection K as <-; repeat split; auto|reflexivity].
        * destruct (reject_rigid st ls2) as (Hj & Ej); [repeat split; auto|auto|]. first [rewrite Ej | unfold Trd at 1 in Ej; rewrite Ej]. apply IH, Hj.
    - eexists. split; [reflexivity|]. split; [discriminate|reflexivity].
    - eexists. split; [reflexivity|]. split; [discriminate|reflexivity].
  Qed.
  Theorem cg_rigid self start : length start = n ->
    cg_optimize self cg' (T start) = (let? w := cg_optimize self cg start in Ok (T w)) /\ (forall w, cg_optimize self cg start = Ok w -> length w = n).
  Proof.
    intros L. unfold cg_optimize, cg_run, cg_start. destruct (Hcg start L) as (c & g & E & Lg & E'). rewrite E, E'. cbn [rbind].
    assert (Lo : length (map nopp g) = n) by (rewrite map_length; auto).
    rewrite <- rig_opp, rig_dot by auto.
    match goal with |- context [cg_loop self cg ?k ?st] => destruct (cg_loop_rigid self k st) as (r & Er & Hr & Er'); [repeat split; auto|]; set (st0 := st) in * end.
    match goal with |- context [cg_loop self cg' ?k ?st] => change st with (Trd st0) end. rewrite Er', Er.
    destruct r as [st'|e|]; cbn [rbind]; split; try reflexivity; try discriminate. intros w K. injection K as <-. apply (Hr st' eq_refl).
  Qed.
End Rigid.

(** The stochastic optimisers, in any arithmetic. *)
Section Stoch.
  Context {F : Type} {N : Num F}.
  Variables (n : nat) (T : list F -> list F) (cg cg' : list F -> matrix F -> matrix F -> res (F * list F)) (inputs inputs' targets targets' : matrix F).
  Variable step : ostate F -> list F -> res (ostate F).
  Hypothesis Hcg : carried_rows n T cg cg' inputs inputs' targets targets'.
  Hypothesis Hstep : forall w a g, length w = n -> length a = n -> length g = n ->
    exists w' a', step (w, a) g = Ok (w', a') /\ length w' = n /\ length a' = n /\ step (T w, T a) (T g) = Ok (T w', T a').

  Definition Tst (st : ostate F) : ostate F := (T (fst st), T (snd st)).
  Lemma pass_carried : forall perm st c, length (fst st) = n -> length (snd st) = n ->
    stoch_pass cg' step inputs' targets' perm (Tst st) c = (let? (st', c') := stoch_pass cg step inputs targets perm st c in Ok (Tst st', c')) /\
    forall st' c', stoch_pass cg step inputs targets perm st c = Ok (st', c') -> length (fst st') = n /\ length (snd st') = n.
  Proof.
    induction perm as [|i perm IH]; intros st c L1 L2.
    - cbn. split; [reflexivity|]. intros st' c' K. injection K as <- _. auto.
    - destruct Hcg as (_ & H). destruct (H i (fst st) L1) as (E & Lg). unfold at_row in E, Lg. cbn [stoch_pass].
      destruct (one_row inputs i) as [xi|e|], (one_row inputs' i) as [xi'|e'|]; cbn [rbind] in *; try discriminate; try (split; [congruence|discriminate]);
      destruct (one_row targets i) as [ti|e1|], (one_row targets' i) as [ti'|e1'|]; cbn [rbind] in *; try discriminate; try (split; [congruence|discriminate]);
      try (destruct (cg (fst st) xi ti) as [(c0 & g)|e2|]; cbn [rbind] in *; try discriminate; try (split; [congruence|discriminate]));
      try (change (fst (Tst st)) with (T (fst st)); rewrite E; cbn [rbind]; try (split; [congruence|discriminate])).
      all: try (injection E as ->; split; [reflexivity|discriminate]).
      specialize (Lg _ _ eq_refl). destruct (Hstep (fst st) (snd st) g L1 L2 Lg) as (w' & a' & Es & L3 & L4 & Es').
      destruct st as (w0 & a0). cbn [fst snd] in *. rewrite Es. unfold Tst at 1. cbn [fst snd]. rewrite Es'. cbn [rbind]. apply (IH (w', a')); auto.
  Qed.
  Lemma loop_carried : forall k perm st c, length (fst st) = n -> length (snd st) = n ->
    stoch_loop cg' step inputs' targets' k perm (Tst st) c = (let! w := stoch_loop cg step inputs targets k perm st c in RRet (T w)).
  Proof.
    induction k as [|k IH]; intros perm st c L1 L2; [reflexivity|]. cbn [stoch_loop]. rewrite rnd_bind_assoc.
    f_equal. apply functional_extensionality. intros perm'. destruct (pass_carried perm' st nzero L1 L2) as (E & L). rewrite E.
    destruct (stoch_pass cg step inputs targets perm' st nzero) as [(st' & c')|e|]; cbn [rbind rnd_res rnd_bind]; [|reflexivity|reflexivity].
    destruct (L _ _ eq_refl) as (L3 & L4). cbn [fst snd]. destruct Hcg as (-> & _).
    destruct (nltb _ _); [reflexivity|]. apply IH; auto.
  Qed.
  Lemma stoch_carried iters start : length start = n -> T (repeat nzero n) = repeat nzero (length (T start)) ->
    stoch_optimize cg' step inputs' targets' iters (T start) = (let! w := stoch_optimize cg step inputs targets iters start in RRet (T w)).
  Proof.
    intros L Z. unfold stoch_optimize. rewrite <- Z. rewrite L. destruct Hcg as (En & _). rewrite En.
    apply (loop_carried iters (seq 0 (nrows inputs)) (start, repeat nzero n) nzero); cbn [fst snd]; auto. apply repeat_length.
  Qed.
End Stoch.

Lemma rvadd_any {F} {N : Num F} (a b : list F) : length a = length b -> rvadd a b = Ok (vadd a b).
Proof. intros E. unfold rvadd, rassert. now rewrite E, Nat.eqb_refl. Qed.
Lemma rvsub_any {F} {N : Num F} (a b : list F) : length a = length b -> rvsub a b = Ok (vsub a b).
Proof. intros E. unfold rvsub, rassert. now rewrite E, Nat.eqb_refl. Qed.

(** Stochastic gradient descent under rigid changes. *)
Lemma rig_zero n n' T : rigid n n' T -> T (repeat 0 n) = repeat 0 n'.
Proof.
  intros HT. apply (zero_dot n'); [apply (rig_len n n' T HT); apply repeat_length|apply repeat_length|].
  assert (Z : forall v : list R, dot (repeat 0 n) v = 0) by (intros; apply dot_zeros_l, Forall_forall; intros z Hz; now apply repeat_spec in Hz).
  assert (Z' : forall v : list R, dot (repeat 0 n') v = 0) by (intros; apply dot_zeros_l, Forall_forall; intros z Hz; now apply repeat_spec in Hz).
  rewrite (dist_inner n') by (rewrite ?repeat_length; auto; apply (rig_len n n' T HT), repeat_length).
  rewrite <- !dot_inner by (rewrite ?repeat_length; auto; apply (rig_len n n' T HT), repeat_length).
  rewrite (rig_dot n n' T HT) by apply repeat_length. rewrite (dot_comm (T _)), Z, !Z'. ring.
Qed.
Theorem sgd_rigid n n' T cg cg' (inputs inputs' targets targets' : matrix R) self start : rigid n n' T ->
  carried_rows n T cg cg' inputs inputs' targets targets' -> length start = n ->
  sgd_optimize self cg' (T start) inputs' targets' = (let! w := sgd_optimize self cg start inputs targets in RRet (T w)).
Proof.
  intros HT Hcg L. apply (stoch_carried n T cg cg' inputs inputs' targets targets' (sgd_step self) Hcg); auto.
  - intros w a g Lw La Lg. unfold sgd_step.
    assert (S : forall c (v : list R), length v = n -> length (vscale c v) = n) by (intros; now rewrite vscale_length).
    assert (A : forall (u v : list R), length u = n -> length v = n -> length (vadd u v) = n) by (intros; unfold vadd; rewrite map2_length; lia).
    assert (B : forall (u v : list R), length u = n -> length v = n -> length (vsub u v) = n) by (intros; unfold vsub; rewrite map2_length; lia).
    pose proof (rig_len n n' T HT) as RL.
    rewrite (rvadd_any (vscale (sgd_mu self) g)) by (rewrite !S; auto). cbn [rbind].
    rewrite (rvadd_any (vscale (sgd_mu self) (T g))) by (rewrite !vscale_length, !RL; auto). cbn [rbind].
    rewrite <- !(rig_vscale n n' T HT), <- (rig_vadd n n' T HT) by auto.
    set (dw := vadd (vscale (sgd_mu self) g) (vscale (sgd_alpha self) a)). assert (Ld : length dw = n) by (unfold dw; auto).
    rewrite (rvadd_any _ (vscale _ dw)) by (rewrite !S; auto). cbn [rbind].
    rewrite <- (rig_vscale n n' T HT) by auto.
    rewrite (rvadd_any (T _) (T _)) by (rewrite !RL; auto). cbn [rbind]. rewrite <- (rig_vadd n n' T HT) by auto.
    set (d := vadd _ _). assert (Ldd : length d = n) by (unfold d; auto).
    rewrite (rvsub_any w) by lia. cbn [rbind]. rewrite (rvsub_any (T w)) by (rewrite !RL; auto). cbn [rbind]. rewrite <- (rig_vsub n n' T HT) by auto.
    eexists _, _. split; [reflexivity|]. repeat split; auto.
  - rewrite (rig_len n n' T HT) by auto. apply rig_zero, HT.
Qed.

(** Another order of the parameters, in any arithmetic. *)
Section Arrange.
  Context {F : Type} {N : Num F}.
  Variables (n : nat) (pi : list nat).
  Hypothesis Hpi : Permutation pi (seq 0 n).

  Lemma arr_len (v : list F) : length (arrange pi v) = n.
  Proof. unfold arrange. rewrite map_length, (Permutation_length Hpi), seq_length. reflexivity. Qed.
  Lemma arr_in k : In k pi -> (k < n)%nat.
  Proof. intros H. apply (Permutation_in _ Hpi), in_seq in H. lia. Qed.
  Lemma arr_map2 (f : F -> F -> F) u v : length u = n -> length v = n -> arrange pi (map2 f u v) = map2 f (arrange pi u) (arrange pi v).
  Proof.
    intros Lu Lv. unfold arrange. pose proof arr_in as H. induction pi as [|k l IH] in H |- *; [reflexivity|]. cbn [map map2]. f_equal.
    - apply map2_nth; rewrite ?Lu, ?Lv; apply H; now left.
    - apply IH. intros j Hj. apply H. now right.
  Qed.
  Lemma arr_map (f : F -> F) u : length u = n -> arrange pi (map f u) = map f (arrange pi u).
  Proof.
    intros Lu. unfold arrange. rewrite map_map. apply map_ext_in. intros k Hk. apply nth_map. rewrite Lu. now apply arr_in.
  Qed.
  Lemma arr_zero : arrange pi (repeat nzero n) = repeat (nzero : F) n.
  Proof.
    pose proof (arr_len (repeat nzero n)) as L. unfold arrange in *. rewrite map_length in L. transitivity (repeat (nzero : F) (length pi)); [|now rewrite L].
    clear L Hpi. generalize n. intros m. induction pi as [|k l IH]; [reflexivity|]. cbn [map length repeat]. f_equal; [apply nth_repeat|exact IH].
  Qed.
  Lemma map2_len (f : F -> F -> F) (u v : list F) : length u = n -> length v = n -> length (map2 f u v) = n.
  Proof. intros. rewrite map2_length. lia. Qed.
  Lemma map_len (f : F -> F) (u : list F) : length u = n -> length (map f u) = n.
  Proof. intros. now rewrite map_length. Qed.
End Arrange.
Theorem gd_arrange F (N : Num F) n pi self cg cg' (start : list F) : Permutation pi (seq 0 n) -> carried n (arrange pi) cg cg' -> length start = n ->
  exists w, gd_optimize self cg start = Ok w /\ length w = n /\ gd_optimize self cg' (arrange pi start) = Ok (arrange pi w).
Proof.
  intros Hpi Hcg. unfold gd_optimize. generalize (@nzero F N). revert start. generalize (gd_iters self). intros k.
  induction k as [|k IH]; intros x prev Lx; [exists x; auto|].
  cbn [gd_loop]. destruct (Hcg x Lx) as (c & g & E & Lg & E'). rewrite E, E'. cbn [rbind].
  destruct (nltb _ _); [exists x; auto|]. unfold vscale.
  rewrite rvsub_any by (rewrite map_length; lia). cbn [rbind].
  rewrite rvsub_any by (rewrite map_length, !(arr_len n pi Hpi); auto). cbn [rbind]. unfold vsub.
  rewrite <- (arr_map n pi Hpi) by auto. rewrite <- (arr_map2 n pi Hpi) by (auto; rewrite map_length; auto). apply IH. apply map2_len; auto. rewrite map_length; auto.
Qed.
Theorem stoch_arrange F (N : Num F) n pi cg cg' (inputs inputs' targets targets' : matrix F) (start : list F) : Permutation pi (seq 0 n) ->
  carried_rows n (arrange pi) cg cg' inputs inputs' targets targets' -> length start = n ->
  (forall self, sgd_optimize self cg' (arrange pi start) inputs' targets' = (let! w := sgd_optimize self cg start inputs targets in RRet (arrange pi w))) /\
  (forall self, ada_optimize self cg' (arrange pi start) inputs' targets' = (let! w := ada_optimize self cg start inputs targets in RRet (arrange pi w))) /\
  (forall self, rms_optimize self cg' (arrange pi start) inputs' targets' = (let! w := rms_optimize self cg start inputs targets in RRet (arrange pi w))).
Proof.
  intros Hpi Hcg L.
  assert (Z : arrange pi (repeat nzero n) = repeat (nzero : F) (length (arrange pi start))) by (rewrite (arr_len n pi Hpi); apply arr_zero, Hpi).
  pose proof (arr_len (F := F) n pi Hpi) as AL.
  assert (ML : forall (f : F -> F) (u : list F), length u = n -> length (map f u) = n) by (intros; now rewrite map_length).
  assert (M2L : forall (f : F -> F -> F) (u v : list F), length u = n -> length v = n -> length (map2 f u v) = n) by (intros; rewrite map2_length; lia).
  split; [|split]; intros self; apply (stoch_carried n (arrange pi) cg cg' inputs inputs' targets targets' _ Hcg); auto; intros w a g Lw La Lg.
  - unfold sgd_step, vscale. rewrite (rvadd_any (map _ g)) by (rewrite !ML; auto). cbn [rbind].
    rewrite (rvadd_any (map _ (arrange pi g))) by (rewrite !map_length, !AL; auto). cbn [rbind]. unfold vadd at 1 2 3 4.
    rewrite (rvadd_any (map _ a)) by (unfold vadd; rewrite !map_length; rewrite M2L; auto). cbn [rbind].
    rewrite (rvadd_any (map _ (arrange pi a))) by (unfold vadd; rewrite !map_length, map2_length, !map_length, !AL; lia). cbn [rbind]. unfold vadd.
    rewrite (rvsub_any w) by (rewrite !M2L; auto). cbn [rbind].
    rewrite <- !(arr_map n pi Hpi), <- !(arr_map2 n pi Hpi) by auto.
    rewrite <- !(arr_map n pi Hpi), <- !(arr_map2 n pi Hpi) by auto.
    rewrite (rvsub_any (arrange pi w)) by (rewrite !AL; auto). cbn [rbind]. unfold vsub. rewrite <- !(arr_map2 n pi Hpi) by auto.
    eexists _, _. split; [reflexivity|]. repeat split; auto 10.
  - unfold ada_step, rassert. rewrite !AL, La, Lg, Nat.eqb_refl.
    rewrite (rvsub_any w) by (rewrite !M2L; auto). cbn [rbind]. rewrite <- !(arr_map2 n pi Hpi) by auto.
    rewrite (rvsub_any (arrange pi w)) by (rewrite !AL; auto). cbn [rbind]. unfold vsub. rewrite <- !(arr_map2 n pi Hpi) by auto.
    eexists _, _. split; [reflexivity|]. repeat split; auto 10.
  - unfold rms_step, vscale. rewrite (rvadd_any (map _ a)) by (rewrite !ML; auto). cbn [rbind].
    rewrite <- !(arr_map n pi Hpi) by auto.
    rewrite (rvadd_any (arrange pi _)) by (rewrite !AL; auto). cbn [rbind]. unfold vadd.
    rewrite (rvsub_any w) by (rewrite !M2L; auto). cbn [rbind]. rewrite <- !(arr_map2 n pi Hpi) by auto.
    rewrite (rvsub_any (arrange pi w)) by (rewrite !AL; auto). cbn [rbind]. unfold vsub. rewrite <- !(arr_map2 n pi Hpi) by auto.
    eexists _, _. split; [reflexivity|]. repeat split; auto 10.
Qed.
