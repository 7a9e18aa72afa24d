(** Lemmas for [Props_Optim] over the reals. *)
From Coq Require Import List Arith Lia Bool Reals Lra Permutation.
From Verif Require Import Base BaseLemmas Num NumX Linalg LinalgR Euclid Model_Rand Proof_Rand Model_Optim Spec_Optim Proof_Optim.
Import ListNotations.
Local Open Scope R_scope.

Lemma pow10_R n : @pow10 R NumR n = 10 ^ n.
Proof.
  induction n as [|n IH]; [reflexivity|]. change (@pow10 R NumR (S n)) with (INR 10 * @pow10 R NumR n).
  rewrite IH. replace (INR 10) with 10 by (cbn; lra). reflexivity.
Qed.
Lemma learning_eps_R : @learning_eps R NumR = / 10 ^ 20.
Proof. unfold learning_eps. cbn [ndiv NumR nonev]. rewrite pow10_R. unfold Rdiv. lra. Qed.

(** Descent. *)
Lemma descent_step n f G L alpha x y : smooth n f G L -> 0 <= alpha -> alpha * L <= 1 -> length x = n ->
  gd_next alpha x (G x) y -> f y <= f x - alpha / 2 * dot (G x) (G x).
Proof.
  intros S A0 A1 Lx (H1 & H2 & H3). destruct (S x Lx) as (Lg & Hs). specialize (Hs y ltac:(lia)).
  assert (E : vsub y x = vscale (- alpha) (G x)).
  { apply nth_ext with (d := 0) (d' := 0).
    - rewrite vscale_length, vsub_len; lia.
    - intros j Hj. rewrite vsub_len in Hj by lia.
      change (at_ (vsub y x) j = at_ (vscale (- alpha) (G x)) j).
      rewrite at_vsub, at_vscale, H3 by lia. cbn [nsub nmul NumR]. lra. }
  rewrite E in Hs. rewrite (dot_comm (G x)), dot_vscale_l in Hs.
  rewrite dot_vscale_l, (dot_comm (G x) (vscale _ _)), dot_vscale_l in Hs.
  pose proof (dot_ge0 (G x)) as D0.
  assert (P : 0 <= alpha * dot (G x) (G x) * (1 - alpha * L)) by (repeat apply Rmult_le_pos; lra). lra.
Qed.

Lemma gd_descent (f : list R -> R) (G : list R -> list R) n L self cg : smooth n f G L ->
  (forall x, length x = n -> cg x = Ok (f x, G x)) ->
  0 <= gd_alpha self -> gd_alpha self * L <= 1 -> forall start w, length start = n ->
  gd_optimize self cg start = Ok w -> f w <= f start /\ length w = n.
Proof.
  intros S Hcg A0 A1. unfold gd_optimize. generalize (@nzero R NumR). generalize (gd_iters self).
  intros k. induction k as [|k IH]; intros prev x w Lx H.
  - cbn in H. injection H as <-. split; [lra|auto].
  - cbn [gd_loop] in H. rewrite (Hcg x Lx) in H. cbn [rbind] in H. destruct (nltb _ _) in H.
    + injection H as <-. split; [lra|auto].
    + apply rbind_Ok_inv in H. destruct H as (y & Hy & H). apply rvsub_Ok in Hy. destruct Hy as (E & ->).
      rewrite vscale_length in E.
      assert (K : gd_next (gd_alpha self) x (G x) (vsub x (vscale (gd_alpha self) (G x)))).
      { split; [auto|]. rewrite vsub_len by (rewrite vscale_length; auto). split; [auto|]. intros j Hj.
        rewrite at_vsub, at_vscale by (rewrite ?vscale_length; lia). reflexivity. }
      pose proof (descent_step n f G L _ _ _ S A0 A1 Lx K) as D.
      destruct (IH _ _ _ (eq_trans (proj1 (proj2 K)) Lx) H) as (K1 & K2). split; [|auto].
      pose proof (dot_ge0 (G x)). nra.
Qed.

Lemma gd_descent_steps n f G L alpha x y : smooth n f G L -> 0 <= alpha -> alpha * L <= 1 -> length x = n ->
  gd_next alpha x (G x) y -> f y <= f x.
Proof.
  intros S A0 A1 Lx K. pose proof (descent_step n f G L alpha x y S A0 A1 Lx K). pose proof (dot_ge0 (G x)). nra.
Qed.

(** Quadratics. *)
Lemma mat_vec_length (A : matrix R) x : length (mat_vec A x) = nrows A.
Proof. apply map_length. Qed.
Lemma dot_vsub_r (u v w : list R) : length u = length v -> dot w (vsub u v) = dot w u - dot w v.
Proof. intros H. rewrite (dot_comm w), dot_vsub_l, (dot_comm u), (dot_comm v); auto. Qed.
Lemma mat_vec_vsub (A : matrix R) x y : length x = length y -> mat_vec A (vsub x y) = vsub (mat_vec A x) (mat_vec A y).
Proof.
  intros H. unfold mat_vec, vsub at 2. induction (mrows A) as [|r rs IH]; [reflexivity|].
  cbn [map map2]. rewrite dot_vsub_r by auto. f_equal. exact IH.
Qed.

Lemma quadratic_smooth (A : matrix R) (b : list R) n L : nrows A = n -> mcols A = n -> length b = n ->
  (forall u v, length u = n -> length v = n -> dot u (mat_vec A v) = dot v (mat_vec A u)) ->
  (forall v, length v = n -> dot v (mat_vec A v) <= L * dot v v) ->
  smooth n (quadratic A b) (quadratic_grad A b) L.
Proof.
  intros Hr Hc Hb Sym Up x Lx. unfold quadratic_grad. split.
  - rewrite vsub_len; rewrite mat_vec_length; lia.
  - intros y Ly. unfold quadratic.
    pose proof (Up (vsub y x)) as U. rewrite vsub_len in U by lia. specialize (U Ly).
    rewrite mat_vec_vsub in U by lia.
    rewrite dot_vsub_l in U by lia. rewrite !dot_vsub_r in U by (rewrite !mat_vec_length; auto).
    rewrite (Sym x y) in U by auto.
    rewrite dot_vsub_l by (rewrite mat_vec_length; lia). rewrite (dot_vsub_r y x (mat_vec A x)), (dot_vsub_r y x b) by lia.
    rewrite (dot_comm (mat_vec A x) y), (dot_comm (mat_vec A x) x). lra.
Qed.

(** Bounded steps. *)
Lemma div_le_1 x d : 0 < d -> Rabs x <= d -> Rabs (x / d) <= 1.
Proof.
  intros Hd H. unfold Rdiv. rewrite Rabs_mult, (Rabs_pos_eq (/ d)) by (left; apply Rinv_0_lt_compat; auto).
  apply Rmult_le_reg_r with d; auto. rewrite Rmult_assoc, Rinv_l by lra. lra.
Qed.
Lemma abs_le_sqrt_sum a g : 0 <= a -> Rabs g <= sqrt (a + g * g).
Proof.
  intros H. rewrite <- (sqrt_Rsqr_abs g). apply sqrt_le_1; unfold Rsqr; nra.
Qed.

Definition nonneg (a : list R) := forall j, (j < length a)%nat -> 0 <= at_ a j.

Lemma ada_next_bound alpha tau w a g w' a' : 0 <= alpha -> 0 <= tau -> length a = length w -> nonneg a ->
  ada_next alpha tau w a g w' a' -> nonneg a' /\ forall j, (j < length w)%nat -> 0 < tau \/ at_ a' j <> 0 ->
  Rabs (at_ w' j - at_ w j) <= alpha.
Proof.
  intros A0 T0 L Na (H1 & H2 & H3). cbn [nadd nmul nsub ndiv nsqrt NumR] in H3.
  assert (Na' : nonneg a').
  { intros j Hj. destruct (H3 j ltac:(lia)) as (-> & _). pose proof (Na j ltac:(lia)). nra. }
  split; [exact Na'|]. intros j Hj T. destruct (H3 j Hj) as (E1 & E2).
  pose proof (Na j ltac:(lia)) as Haj. pose proof (Na' j ltac:(lia)) as Haj'.
  rewrite E2. replace (at_ w j - alpha * (at_ g j / (tau + sqrt (at_ a' j))) - at_ w j)
    with (- (alpha * (at_ g j / (tau + sqrt (at_ a' j))))) by ring.
  rewrite Rabs_Ropp, Rabs_mult, (Rabs_pos_eq alpha) by auto.
  pose proof (sqrt_pos (at_ a' j)).
  assert (P : 0 < tau + sqrt (at_ a' j)).
  { destruct T as [T|T]; [lra|]. assert (0 < sqrt (at_ a' j)) by (apply sqrt_lt_R0; lra). lra. }
  pose proof (abs_le_sqrt_sum _ (at_ g j) Haj) as B. rewrite <- E1 in B.
  assert (B' : Rabs (at_ g j) <= tau + sqrt (at_ a' j)) by lra.
  pose proof (div_le_1 (at_ g j) _ P B'). pose proof (Rabs_pos (at_ g j / (tau + sqrt (at_ a' j)))). nra.
Qed.

Lemma rms_next_bound rate decay eps w a g w' a' : 0 <= rate -> 0 < decay < 1 -> 0 < eps -> length a = length w -> nonneg a ->
  rms_next rate decay eps w a g w' a' -> nonneg a' /\ forall j, (j < length w)%nat ->
  Rabs (at_ w' j - at_ w j) <= rate / sqrt (1 - decay).
Proof.
  intros A0 D E0 L Na (H1 & H2 & H3). cbn [nadd nmul nsub ndiv nsqrt nonev NumR] in H3.
  assert (Na' : nonneg a').
  { intros j Hj. destruct (H3 j ltac:(lia)) as (-> & _). pose proof (Na j ltac:(lia)).
    apply Rplus_le_le_0_compat; [nra|]. apply Rmult_le_pos; nra. }
  split; [exact Na'|]. intros j Hj. destruct (H3 j Hj) as (E1 & E2).
  pose proof (Na j ltac:(lia)) as Haj. pose proof (Na' j ltac:(lia)) as Haj'.
  set (s := sqrt (at_ a' j + eps)) in *. set (r := sqrt (1 - decay)).
  assert (Ps : 0 < s) by (apply sqrt_lt_R0; lra). assert (Pr : 0 < r) by (apply sqrt_lt_R0; lra).
  rewrite E2. replace (at_ w j - at_ g j * rate / s - at_ w j) with (- (rate / r * (at_ g j * r / s))) by (field; lra).
  rewrite Rabs_Ropp, Rabs_mult, (Rabs_pos_eq (rate / r)).
  2:{ apply Rmult_le_pos; [auto|]. left. apply Rinv_0_lt_compat; auto. }
  assert (B : Rabs (at_ g j * r) <= s).
  { rewrite <- sqrt_Rsqr_abs. unfold s. apply sqrt_le_1; unfold Rsqr.
    - nra.
    - lra.
    - replace (at_ g j * r * (at_ g j * r)) with (at_ g j * at_ g j * (r * r)) by ring.
      unfold r. rewrite sqrt_sqrt by lra. nra. }
  pose proof (div_le_1 _ _ Ps B). pose proof (Rabs_pos (at_ g j * r / s)).
  assert (0 <= rate / r) by (apply Rmult_le_pos; [auto|left; apply Rinv_0_lt_compat; auto]). nra.
Qed.

Section Bound.
  Variable cg : list R -> matrix R -> matrix R -> res (R * list R).
  Variable next : list R -> list R -> list R -> list R -> list R -> Prop.
  Variables inputs targets : matrix R.
  Variable B : R.
  Hypothesis HB : 0 <= B.
  Hypothesis next_len : forall w a g w' a', next w a g w' a' -> length a' = length w /\ length w' = length w.
  Hypothesis next_bound : forall w a g w' a', length a = length w -> nonneg a -> next w a g w' a' ->
    nonneg a' /\ forall j, (j < length w)%nat -> Rabs (at_ w' j - at_ w j) <= B.

  Lemma sweep_bound order w a c w' a' c' : sweep cg next inputs targets order w a c w' a' c' -> length a = length w -> nonneg a ->
    nonneg a' /\ length w' = length w /\ length a' = length w /\
    forall j, (j < length w)%nat -> Rabs (at_ w' j - at_ w j) <= INR (length order) * B.
  Proof.
    induction 1 as [w a c|i order w a c x t ci g w1 a1 w' a' c' Hx Ht Hc Hg Hn Hs IH]; intros L Na.
    - repeat split; auto. intros j Hj. unfold Rminus. rewrite Rplus_opp_r, Rabs_R0. cbn. lra.
    - destruct (next_len _ _ _ _ _ Hn) as (L1 & L2). destruct (next_bound _ _ _ _ _ L Na Hn) as (N1 & B1).
      destruct (IH ltac:(lia) N1) as (N2 & L3 & L4 & B2). repeat split; auto; try lia. intros j Hj.
      specialize (B1 j Hj). specialize (B2 j ltac:(lia)). cbn [length]. rewrite S_INR.
      replace (at_ w' j - at_ w j) with ((at_ w' j - at_ w1 j) + (at_ w1 j - at_ w j)) by ring.
      eapply Rle_trans; [apply Rabs_triang|]. lra.
  Qed.

  Lemma epochs_bound eps n prev w a orders v k : epochs cg next inputs targets eps n prev w a orders v ->
    length a = length w -> nonneg a -> Forall (fun o => length o = k) orders ->
    forall j, (j < length w)%nat -> Rabs (at_ v j - at_ w j) <= INR (length orders) * (INR k * B).
  Proof.
    induction 1 as [prev w a|n prev w a order w' a' c' Hs Hb|n prev w a order w1 a1 c1 orders w' Hs Hb He IH]; intros L Na Ho j Hj.
    - unfold Rminus. rewrite Rplus_opp_r, Rabs_R0. cbn. lra.
    - destruct (sweep_bound _ _ _ _ _ _ _ Hs L Na) as (_ & _ & _ & B1). specialize (B1 j Hj).
      inversion Ho as [|? ? Ho1 Ho2]; subst. cbn [length INR]. lra.
    - destruct (sweep_bound _ _ _ _ _ _ _ Hs L Na) as (N1 & L1 & L2 & B1). specialize (B1 j Hj).
      inversion Ho; subst. specialize (IH ltac:(lia) N1 ltac:(auto) j ltac:(lia)). cbn [length]. rewrite S_INR.
      replace (at_ w' j - at_ w j) with ((at_ w' j - at_ w1 j) + (at_ w1 j - at_ w j)) by ring.
      eapply Rle_trans; [apply Rabs_triang|]. lra.
  Qed.
End Bound.

Lemma nonneg_zeros n : nonneg (repeat 0 n).
Proof. intros j Hj. unfold at_. change (@nzero R NumR) with 0. rewrite nth_repeat. lra. Qed.

Lemma total_bound cg next step inputs targets (B : R) iters start v : 0 <= B ->
  (forall w a g w' a', length a = length w -> step (w, a) g = Ok (w', a') ->
      length g = length w /\ next w a g w' a' /\ length w' = length w /\ length a' = length w) ->
  (forall w a g w' a', next w a g w' a' -> length a' = length w /\ length w' = length w) ->
  (forall w a g w' a', length a = length w -> nonneg a -> next w a g w' a' ->
    nonneg a' /\ forall j, (j < length w)%nat -> Rabs (at_ w' j - at_ w j) <= B) ->
  outcome (stoch_optimize cg step inputs targets iters start) (Some v) ->
  forall j, (j < length start)%nat -> Rabs (at_ v j - at_ start j) <= INR iters * INR (nrows inputs) * B.
Proof.
  intros HB H1 H2 H3 H j Hj.
  destruct (optimize_epochs cg step next inputs targets H1 iters start v H) as (orders & P & Lo & E & _).
  assert (Fo : Forall (fun o : list nat => length o = nrows inputs) orders).
  { eapply Forall_impl; [|exact P]. intros o Po. apply Permutation_length in Po. rewrite seq_length in Po. auto. }
  pose proof (epochs_bound cg next inputs targets B H2 H3 _ _ _ _ _ _ _ (nrows inputs) E) as Bd.
  rewrite repeat_length in Bd. specialize (Bd eq_refl (nonneg_zeros _) Fo j Hj).
  apply le_INR in Lo. pose proof (pos_INR (nrows inputs)).
  assert (0 <= INR (nrows inputs) * B) by (apply Rmult_le_pos; auto).
  rewrite Rmult_assoc. eapply Rle_trans; [exact Bd|]. apply Rmult_le_compat_r; auto.
Qed.

Theorem ada_total self cg start inputs targets v : 0 <= ada_alpha self -> 0 < ada_tau self ->
  outcome (ada_optimize self cg start inputs targets) (Some v) ->
  forall j, (j < length start)%nat -> Rabs (at_ v j - at_ start j) <= INR (ada_iters self) * INR (nrows inputs) * ada_alpha self.
Proof.
  intros A0 T0 H. eapply (total_bound cg (ada_next (ada_alpha self) (ada_tau self)) (ada_step self)); [exact A0|..|exact H].
  - apply ada_step_next.
  - intros w a g w' a' (K1 & K2 & _). auto.
  - intros w a g w' a' L Na K. destruct (ada_next_bound _ _ _ _ _ _ _ A0 (Rlt_le _ _ T0) L Na K) as (K1 & K2). split; auto.
Qed.
Theorem rms_total self cg start inputs targets v : 0 <= rms_rate self -> 0 < rms_decay self < 1 -> 0 < rms_epsilon self ->
  outcome (rms_optimize self cg start inputs targets) (Some v) ->
  forall j, (j < length start)%nat -> Rabs (at_ v j - at_ start j) <= INR (rms_iters self) * INR (nrows inputs) * (rms_rate self / sqrt (1 - rms_decay self)).
Proof.
  intros A0 D E0 H. eapply (total_bound cg (rms_next (rms_rate self) (rms_decay self) (rms_epsilon self)) (rms_step self)); [..|exact H].
  - apply Rmult_le_pos; [auto|]. left. apply Rinv_0_lt_compat. apply sqrt_lt_R0. lra.
  - apply rms_step_next.
  - intros w a g w' a' (K1 & K2 & _). auto.
  - intros w a g w' a' L Na K. apply (rms_next_bound _ _ _ _ _ _ _ _ A0 D E0 L Na K).
Qed.

Lemma run_inv (step : ostate R -> list R -> res (ostate R)) next n :
  (forall w a g w' a', length a = length w -> step (w, a) g = Ok (w', a') ->
      length g = length w /\ next w a g w' a' /\ length w' = length w /\ length a' = length w) ->
  (forall w a g w' a', length a = length w -> nonneg a -> next w a g w' a' -> nonneg a') ->
  forall gs w0 a0 w a, length w0 = n -> length a0 = n -> nonneg a0 -> run_steps step (w0, a0) gs = Ok (w, a) ->
  length w = n /\ length a = n /\ nonneg a.
Proof.
  intros H1 H2. induction gs as [|g gs IH]; intros w0 a0 w a L1 L2 Na H.
  - cbn in H. injection H as <- <-. auto.
  - cbn [run_steps] in H. apply rbind_Ok_inv in H. destruct H as ((w1 & a1) & Hs & H).
    destruct (H1 w0 a0 g w1 a1 ltac:(lia) Hs) as (K1 & K2 & K3 & K4).
    apply (IH w1 a1); try lia; auto. eapply H2; [|exact Na|exact K2]. lia.
Qed.

Theorem ada_bounded self start gs w a g w' a' : 0 <= ada_alpha self -> 0 <= ada_tau self ->
  run_steps (ada_step self) (start, repeat 0 (length start)) gs = Ok (w, a) -> ada_step self (w, a) g = Ok (w', a') ->
  forall j, (j < length start)%nat -> 0 < ada_tau self \/ at_ a' j <> 0 -> Rabs (at_ w' j - at_ w j) <= ada_alpha self.
Proof.
  intros A0 T0 H1 H2 j Hj T.
  destruct (run_inv (ada_step self) (ada_next (ada_alpha self) (ada_tau self)) (length start)
    (ada_step_next self) (fun w a g w' a' L Na K => proj1 (ada_next_bound _ _ w a g w' a' A0 T0 L Na K))
    gs start (repeat 0 (length start)) w a eq_refl (repeat_length _ _) (nonneg_zeros _) H1) as (L1 & L2 & Na).
  destruct (ada_step_next self w a g w' a' ltac:(lia) H2) as (_ & K & _).
  apply (ada_next_bound _ _ w a g w' a' A0 T0 (eq_trans L2 (eq_sym L1)) Na K); [lia|auto].
Qed.
Theorem rms_bounded self start gs w a g w' a' : 0 <= rms_rate self -> 0 < rms_decay self < 1 -> 0 < rms_epsilon self ->
  run_steps (rms_step self) (start, repeat 0 (length start)) gs = Ok (w, a) -> rms_step self (w, a) g = Ok (w', a') ->
  forall j, (j < length start)%nat -> Rabs (at_ w' j - at_ w j) <= rms_rate self / sqrt (1 - rms_decay self).
Proof.
  intros A0 D E0 H1 H2 j Hj.
  destruct (run_inv (rms_step self) (rms_next (rms_rate self) (rms_decay self) (rms_epsilon self)) (length start)
    (rms_step_next self) (fun w a g w' a' L Na K => proj1 (rms_next_bound _ _ _ w a g w' a' A0 D E0 L Na K))
    gs start (repeat 0 (length start)) w a eq_refl (repeat_length _ _) (nonneg_zeros _) H1) as (L1 & L2 & Na).
  destruct (rms_step_next self w a g w' a' ltac:(lia) H2) as (_ & K & _).
  apply (rms_next_bound _ _ _ w a g w' a' A0 D E0 (eq_trans L2 (eq_sym L1)) Na K). lia.
Qed.

(** No panics when the model's gradient has the right length. *)
Section NoPanic.
  Context {F : Type} {N : Num F}.
  Variable cg : list F -> matrix F -> matrix F -> res (F * list F).
  Variable step : ostate F -> list F -> res (ostate F).
  Variables inputs targets : matrix F.
  Variable n : nat.
  Hypothesis cg_ok : forall w x t, length w = n -> exists c g, cg w x t = Ok (c, g) /\ length g = n.
  Hypothesis step_ok : forall w a g, length w = n -> length a = n -> length g = n ->
    exists w' a', step (w, a) g = Ok (w', a') /\ length w' = n /\ length a' = n.
  Hypothesis rows : (nrows inputs <= nrows targets)%nat.

  Lemma pass_ok : forall order w a c, Forall (fun i => (i < nrows inputs)%nat) order -> length w = n -> length a = n ->
    exists w' a' c', stoch_pass cg step inputs targets order (w, a) c = Ok ((w', a'), c') /\ length w' = n /\ length a' = n.
  Proof.
    induction order as [|i order IH]; intros w a c Ho Lw La.
    - cbn. eauto 10.
    - apply Forall_cons_iff in Ho. destruct Ho as (Hi & Ho'). cbn [stoch_pass fst]. unfold one_row, ridx.
      destruct (nth_error (mrows inputs) i) as [x|] eqn:Ex.
      2:{ apply nth_error_None in Ex. unfold nrows in Hi. lia. }
      destruct (nth_error (mrows targets) i) as [t|] eqn:Et.
      2:{ apply nth_error_None in Et. unfold nrows in *. lia. }
      cbn [rbind]. destruct (cg_ok w (Mat [x] (mcols inputs)) (Mat [t] (mcols targets)) Lw) as (ci & g & -> & Lg).
      cbn [rbind]. destruct (step_ok w a g Lw La Lg) as (w1 & a1 & -> & L1 & L2). cbn [rbind]. apply IH; auto.
  Qed.

  Lemma loop_ok : forall k perm w a prev, Forall (fun i => (i < nrows inputs)%nat) perm -> length w = n -> length a = n ->
    ~ outcome (stoch_loop cg step inputs targets k perm (w, a) prev) None.
  Proof.
    induction k as [|k IH]; intros perm w a prev Hp Lw La H.
    - cbn in H. inversion H.
    - cbn [stoch_loop] in H. apply outcome_bind in H. destruct H as [(p & Ho & H)|(_ & H)].
      + destruct (in_place_perm _ _ Ho) as (t & Et & Pt). injection Et as <-.
        assert (Hp' : Forall (fun i => (i < nrows inputs)%nat) p).
        { apply Forall_forall. intros i Hi. rewrite Forall_forall in Hp. apply Hp. eapply Permutation_in; [symmetry|]; eauto. }
        destruct (pass_ok p w a nzero Hp' Lw La) as (w1 & a1 & c1 & E & L1 & L2). rewrite E in H. cbn [rnd_res rnd_bind fst snd] in H.
        destruct (nltb _ _) in H; [inversion H|]. exact (IH _ _ _ _ Hp' L1 L2 H).
      + destruct (in_place_perm _ _ H) as (t & Et & _). discriminate.
  Qed.
  Theorem optimize_ok iters start : length start = n -> ~ outcome (stoch_optimize cg step inputs targets iters start) None.
  Proof.
    intros L. apply loop_ok; auto; [|rewrite repeat_length; auto].
    apply Forall_forall. intros i Hi. apply in_seq in Hi. lia.
  Qed.
End NoPanic.

Lemma rvsub_eq {F} {N : Num F} (a b : list F) : length a = length b -> rvsub a b = Ok (vsub a b).
Proof. intros H. unfold rvsub, rassert. rewrite (proj2 (Nat.eqb_eq _ _) H). reflexivity. Qed.
Lemma rvadd_eq {F} {N : Num F} (a b : list F) : length a = length b -> rvadd a b = Ok (vadd a b).
Proof. intros H. unfold rvadd, rassert. rewrite (proj2 (Nat.eqb_eq _ _) H). reflexivity. Qed.

Theorem stoch_no_panic {F} {N : Num F} (n : nat) cg (inputs targets : matrix F) start :
  (forall w x t, length w = n -> exists c g, cg w x t = Ok (c, g) /\ length g = n) ->
  (nrows inputs <= nrows targets)%nat -> length start = n ->
  (forall self, ~ outcome (sgd_optimize self cg start inputs targets) None) /\
  (forall self, ~ outcome (ada_optimize self cg start inputs targets) None) /\
  (forall self, ~ outcome (rms_optimize self cg start inputs targets) None).
Proof.
  intros Hc Hr L. repeat split; intros self; eapply optimize_ok; eauto; intros w a g Lw La Lg.
  - unfold sgd_step. rewrite rvadd_eq by (rewrite !vscale_length; lia). cbn [rbind].
    rewrite rvadd_eq by (rewrite !vscale_length, vadd_len; rewrite !vscale_length; lia). cbn [rbind].
    rewrite rvsub_eq. 2:{ rewrite vadd_len; rewrite !vscale_length; [lia|]. rewrite vadd_len; rewrite !vscale_length; lia. }
    cbn [rbind]. do 2 eexists. split; [reflexivity|]. split.
    + rewrite vsub_len; [auto|]. rewrite vadd_len; rewrite !vscale_length; [lia|]. rewrite vadd_len; rewrite !vscale_length; lia.
    + rewrite vadd_len; rewrite !vscale_length; lia.
  - unfold ada_step, rassert. rewrite (proj2 (Nat.eqb_eq _ _)) by lia.
    rewrite rvsub_eq by (rewrite !map2_length; lia). cbn [rbind]. do 2 eexists. split; [reflexivity|].
    rewrite vsub_len by (rewrite !map2_length; lia). rewrite !map2_length. lia.
  - unfold rms_step. rewrite rvadd_eq by (rewrite !vscale_length, map_length; lia). cbn [rbind].
    rewrite rvsub_eq. 2:{ rewrite map2_length, vadd_len; rewrite !vscale_length, ?map_length; lia. }
    cbn [rbind]. do 2 eexists. split; [reflexivity|].
    rewrite vsub_len. 2:{ rewrite map2_length, vadd_len; rewrite !vscale_length, ?map_length; lia. }
    rewrite vadd_len; rewrite !vscale_length, ?map_length; lia.
Qed.

(** AdaGrad with [tau = 0] and a zero gradient: 0/0. *)
Lemma fin0_div : @ndiv X NumXI (Fin 0) (nadd (Fin 0) (nsqrt (nadd (Fin 0) (nmul (Fin 0) (Fin 0))))) = NaN.
Proof.
  cbn. rewrite Rmult_0_l, Rplus_0_l. destruct (Rlt_dec 0 0) as [H|_]; [lra|]. cbn. rewrite sqrt_0, Rplus_0_l.
  destruct (Req_EM_T 0 0) as [_|H]; [|lra]. unfold sgn_inf. destruct (Rlt_dec 0 0); [lra|reflexivity].
Qed.
Lemma ada_nan_step self w : ada_tau self = Fin 0 -> @ada_step X NumXI self ([w], [Fin 0]) [Fin 0] = Ok ([NaN], [nadd (Fin 0) (nmul (Fin 0) (Fin 0))]).
Proof.
  intros E. unfold ada_step. cbn [length Nat.eqb rassert map2]. rewrite E, fin0_div.
  unfold rvsub, rassert. cbn [length Nat.eqb rbind vsub map2].
  replace (nsub w (nmul (ada_alpha self) NaN)) with NaN; [reflexivity|].
  destruct (ada_alpha self), w; reflexivity.
Qed.
Theorem ada_tau_zero_nan : exists (self : AdaGrad X) cg (inputs targets : matrix X),
  ada_new (Fin 1) (Fin 0) 1 = Ok self /\ (forall w x t, cg w x t = Ok (Fin 1, [Fin 0])) /\
  forall o, outcome (ada_optimize self cg [Fin 5] inputs targets) o -> o = Some [NaN].
Proof.
  exists {| ada_alpha := Fin 1; ada_tau := Fin 0; ada_iters := 1 |}, (fun _ _ _ => Ok (Fin 1, [Fin 0])),
    (Mat [[Fin 1]] 1), (Mat [[Fin 1]] 1). split; [|split; [reflexivity|]].
  - unfold ada_new. cbn. destruct (Rlt_dec 0 1); [|lra]. cbn.
    unfold xleb, xltb, xeqb. destruct (Rlt_dec 0 0); [lra|]. destruct (Req_EM_T 0 0); [reflexivity|lra].
  - intros o H. unfold ada_optimize, stoch_optimize in H. cbn [nrows mrows length seq stoch_loop ada_iters] in H.
    apply outcome_bind in H. destruct H as [(p & Hp & H)|(_ & H)].
    2:{ destruct (in_place_perm _ _ H) as (t & Et & _). discriminate. }
    destruct (in_place_perm _ _ Hp) as (t & Et & Pt). injection Et as <-.
    apply Permutation_length_1_inv in Pt. subst p.
    cbn [stoch_pass one_row ridx nth_error mrows rbind fst length repeat] in H. unfold one_row in H. cbn [ridx nth_error mrows rbind] in H.
    change (@nzero X NumXI) with (Fin 0) in H.
    rewrite (ada_nan_step {| ada_alpha := Fin 1; ada_tau := Fin 0; ada_iters := 1 |} (Fin 5) eq_refl) in H. cbn [rbind rnd_res rnd_bind fst snd] in H.
    destruct (nltb _ _) in H; inversion H; reflexivity.
Qed.

(** The first cost is compared with zero. *)
Theorem gd_stops_at_once : exists (self : GradientDesc R) (f : list R -> R) (start : list R),
  (0 < gd_iters self)%nat /\ gd_new 1 1 = Ok self /\ smooth 1 f (fun _ => [1]) 1 /\ length start = 1%nat /\
  gd_optimize self (fun x => Ok (f x, [1])) start = Ok start /\
  forall y, gd_next (gd_alpha self) start [1] y -> f y <= f start - 1 / 2.
Proof.
  exists {| gd_alpha := 1; gd_iters := 1 |}, (fun x => at_ x 0), [0]. repeat split.
  - cbn. lia.
  - unfold gd_new. cbn. destruct (Rlt_dec 0 1); [reflexivity|lra].
  - intros y Ly. destruct x as [|a [|]], y as [|b [|]]; try discriminate.
    cbn [vsub map2]. rewrite !dot_cons, !dot_nil_l. unfold at_. cbn [nth]. cbn [nsub NumR].
    pose proof (Rle_0_sqr (b - a)) as Q. unfold Rsqr in Q. lra.
  - unfold gd_optimize. cbn [gd_iters gd_loop rbind]. rewrite learning_eps_R.
    unfold at_. cbn [nth nltb NumR nabs nsub nzero]. replace (0 - 0) with 0 by ring. rewrite Rabs_R0.
    destruct (Rlt_dec 0 (/ 10 ^ 20)) as [_|H]; [reflexivity|]. exfalso. apply H. apply Rinv_0_lt_compat. apply pow_lt. lra.
  - intros y (_ & _ & H). rewrite (H 0%nat) by (cbn; lia). unfold at_. cbn. lra.
Qed.
