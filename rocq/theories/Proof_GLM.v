(** Lemmas for [Props_GLM]. *)
From Coq Require Import List Arith Lia Bool Reals Lra.
From Verif Require Import Base BaseLemmas Num NumFn Linalg LinalgR Spec_Calc CalcR MatR Proof_KMeans Model_Optim Proof_Optim Proof_Optim2
  Proof_Toolkit Model_Regression Spec_Regression Proof_Regression Model_GLM Spec_GLM.
Import ListNotations.
Local Open Scope R_scope.

Lemma from_diag_wf {F} {N : Num F} (d : list F) : mwf (from_diag d).
Proof. unfold mwf, from_diag. cbn [mrows mcols]. apply Forall_forall. intros r H. apply in_map_iff in H. destruct H as [i [<- _]]. now rewrite map_length, seq_length. Qed.
Lemma from_diag_nrows {F} {N : Num F} (d : list F) : nrows (from_diag d) = length d.
Proof. unfold nrows, from_diag. cbn [mrows]. now rewrite map_length, seq_length. Qed.
Lemma from_diag_entry (d : list R) i j : (i < length d)%nat -> (j < length d)%nat ->
  entry (from_diag d) i j = if (i =? j)%nat then nth i d 0 else 0.
Proof.
  intros Hi Hj. unfold entry, from_diag. cbn [mrows].
  rewrite (nth_map_seq _ _ _ []) by auto. now rewrite (nth_map_seq _ _ _ 0) by auto.
Qed.
Lemma velemul_length (u v : list R) : length u = length v -> length (velemul u v) = length u.
Proof. revert v. induction u as [|a u IH]; intros [|b v] H; try discriminate; auto. cbn. f_equal. apply IH. now injection H. Qed.
Lemma velemul_nth (u v : list R) i : length u = length v -> nth i (velemul u v) 0 = nth i u 0 * nth i v 0.
Proof. revert v i. induction u as [|a u IH]; intros [|b v] [|i] H; try discriminate; cbn; try ring. apply IH. now injection H. Qed.
Lemma from_diag_mv (d v : list R) : length v = length d -> mat_vec (from_diag d) v = velemul d v.
Proof.
  intros L. apply vec_ext; rewrite mat_vec_length', from_diag_nrows. { now rewrite velemul_length. }
  intros i Hi. rewrite mat_vec_nth; [|apply from_diag_wf|exact L|now rewrite from_diag_nrows].
  rewrite velemul_nth by auto. cbn [mcols from_diag].
  rewrite (sumR_ext _ _ (fun j => if (i =? j)%nat then nth j d 0 * nth j v 0 else 0)).
  - now apply (sumR_pick (length d) (fun j => nth j d 0 * nth j v 0)).
  - intros j Hj. rewrite from_diag_entry by auto. destruct (Nat.eqb_spec i j) as [->|]; ring.
Qed.

(** One pass solves the weighted normal equations, uniquely. *)
Definition weighted_normal (Z : matrix R) (w z b : list R) : Prop :=
  mat_vec (transpose Z) (velemul w (mat_vec Z b)) = mat_vec (transpose Z) (velemul w z).
Lemma pass_R inverse cr Z y mu z w b mu' z' : inverse_sound inverse -> mwf Z -> cr_working_weight cr mu = Ok w ->
  length w = nrows Z -> length z = nrows Z -> glm_pass inverse cr Z y mu z = Ok (b, mu', z') ->
  length b = mcols Z /\ weighted_normal Z w z b /\
  (forall c, length c = mcols Z -> weighted_normal Z w z c -> c = b) /\
  mu' = map (lk_inv (cr_link cr)) (mat_vec Z b) /\ z' = vadd (cr_y_bar cr y mu) (mat_vec Z b).
Proof.
  intros Si W Ew Lw Lz H. unfold glm_pass in H. rewrite Ew in H. cbn [rbind] in H.
  set (xtw := mat_mul (transpose Z) (from_diag w)) in *.
  assert (Wt : mwf (transpose Z)) by apply transpose_wf.
  assert (Wx : mwf xtw) by apply mat_mul_wf.
  assert (Rx : nrows xtw = mcols Z) by (unfold xtw; now rewrite mat_mul_nrows, transpose_nrows).
  assert (Cx : mcols xtw = nrows Z) by (unfold xtw; cbn [mat_mul mcols from_diag]; exact Lw).
  assert (Xv : forall v, length v = nrows Z -> mat_vec xtw v = mat_vec (transpose Z) (velemul w v)).
  { intros v Lv. unfold xtw. rewrite mat_vec_mul.
    - rewrite from_diag_mv by lia. reflexivity.
    - exact Wt.
    - apply from_diag_wf.
    - rewrite from_diag_nrows, transpose_mcols. exact Lw.
    - cbn [mcols from_diag]. lia. }
  set (A := mat_mul xtw Z) in *.
  assert (WA : mwf A) by apply mat_mul_wf.
  assert (RA : nrows A = mcols Z) by (unfold A; now rewrite mat_mul_nrows).
  assert (CA : mcols A = mcols Z) by reflexivity.
  assert (Av : forall c, length c = mcols Z -> mat_vec A c = mat_vec (transpose Z) (velemul w (mat_vec Z c))).
  { intros c Lc. unfold A. rewrite mat_vec_mul by (rewrite ?Cx; auto). apply Xv. apply mat_vec_length'. }
  destruct (inverse A) as [B|] eqn:EB; [|discriminate]. apply Ok_inj in H.
  destruct (Si A B WA) as [WB [RB [CB I]]]; [congruence|exact EB|].
  assert (Eb : mat_vec (mat_mul B xtw) z = mat_vec B (mat_vec xtw z)) by (apply mat_vec_mul; auto; lia).
  rewrite Eb in H. pose proof (f_equal (fun t => fst (fst t)) H) as H1. pose proof (f_equal (fun t => snd (fst t)) H) as H2.
  pose proof (f_equal snd H) as H3. cbn [fst snd] in H1, H2, H3. rewrite H1 in H2, H3.
  assert (Lb : length b = mcols Z) by (rewrite <- H1, mat_vec_length'; lia).
  assert (Lxz : length (mat_vec xtw z) = nrows A) by (rewrite mat_vec_length'; lia).
  repeat split; auto.
  - unfold weighted_normal. rewrite <- Av by auto. rewrite <- H1. rewrite (proj1 (I _ Lxz)). now apply Xv.
  - intros c Lc Ec. unfold weighted_normal in Ec. rewrite <- Av in Ec by auto. rewrite <- Xv in Ec by auto.
    rewrite <- H1, <- Ec. symmetry. apply I. lia.
Qed.
(** The residuals are orthogonal to the columns. *)
Lemma weighted_normal_orth Z w z b d : mwf Z -> length w = nrows Z -> length z = nrows Z -> length b = mcols Z -> length d = mcols Z ->
  weighted_normal Z w z b ->
  sumR (nrows Z) (fun i => nth i w 0 * (nth i z 0 - nth i (mat_vec Z b) 0) * nth i (mat_vec Z d) 0) = 0.
Proof.
  intros W Lw Lz Lb Ld E. pose proof (f_equal (fun u => dot u d) E) as D. cbv beta in D.
  assert (Lm : length (mat_vec Z b) = nrows Z) by apply mat_vec_length'.
  assert (Ld' : length (mat_vec Z d) = nrows Z) by apply mat_vec_length'.
  rewrite <- !dot_transpose in D; auto; try (rewrite velemul_length; lia).
  rewrite !(dot_sumR (nrows Z)) in D; auto; try (rewrite velemul_length; lia).
  rewrite (sumR_ext _ _ (fun i => nth i (velemul w z) 0 * nth i (mat_vec Z d) 0 - nth i (velemul w (mat_vec Z b)) 0 * nth i (mat_vec Z d) 0)).
  - rewrite sumR_minus. lra.
  - intros i Hi. rewrite !velemul_nth by lia. ring.
Qed.

Lemma eta_affine (X : matrix R) p i : mwf X -> length p = S (mcols X) -> (i < nrows X)%nat ->
  nth i (mat_vec (with_ones X) p) 0 = affine p (nth i (mrows X) []).
Proof. intros W Lp Hi. rewrite mat_vec_ones by auto. now rewrite (nth_map (affine p) _ _ _ []). Qed.
Lemma eta_vsub Z p q i : length p = length q -> nth i (mat_vec Z (vsub q p)) 0 = nth i (mat_vec Z q) 0 - nth i (mat_vec Z p) 0.
Proof.
  intros L. rewrite mat_vec_vsub by lia. unfold vsub. change (@nsub R NumR) with Rminus.
  assert (E : length (mat_vec Z q) = length (mat_vec Z p)) by now rewrite !mat_vec_length'.
  revert E i. generalize (mat_vec Z q) (mat_vec Z p). induction l as [|a l IH]; intros [|b m] E [|i]; try discriminate; cbn; try lra.
  apply IH. now injection E.
Qed.
Lemma wls_min X w y p : mwf X -> length w = nrows X -> length y = nrows X -> length p = S (mcols X) ->
  (forall i, (i < nrows X)%nat -> 0 <= nth i w 0) -> weighted_normal (with_ones X) w y p ->
  forall q, length q = S (mcols X) -> wrss w X y p <= wrss w X y q.
Proof.
  intros W Lw Ly Lp Pw E q Lq. set (Z := with_ones X) in *.
  assert (WZ : mwf Z) by now apply with_ones_wf. assert (RZ : nrows Z = nrows X) by apply with_ones_nrows.
  assert (CZ : mcols Z = S (mcols X)) by reflexivity.
  pose proof (weighted_normal_orth Z w y p (vsub q p) WZ) as O.
  assert (O' : sumR (nrows Z) (fun i => nth i w 0 * (nth i y 0 - nth i (mat_vec Z p) 0) * nth i (mat_vec Z (vsub q p)) 0) = 0).
  { apply O; try lia; auto. rewrite vsub_len'; lia. }
  clear O. rewrite RZ in O'. unfold wrss.
  enough (H : 0 <= sumR (nrows X) (fun i => nth i w 0 * (nth i y 0 - affine q (nth i (mrows X) [])) ^ 2)
      - sumR (nrows X) (fun i => nth i w 0 * (nth i y 0 - affine p (nth i (mrows X) [])) ^ 2) + 2 *
    sumR (nrows X) (fun i => nth i w 0 * (nth i y 0 - nth i (mat_vec Z p) 0) * nth i (mat_vec Z (vsub q p)) 0)) by lra.
  rewrite <- sumR_minus. rewrite <- sumR_scal, <- sumR_plus. apply sumR_ge0. intros i Hi.
  rewrite eta_vsub by lia. unfold Z. rewrite !eta_affine by auto.
  set (a := affine q _). set (c := affine p _). set (t := nth i y 0). specialize (Pw i Hi).
  replace (nth i w 0 * (t - a) ^ 2 - nth i w 0 * (t - c) ^ 2 + 2 * (nth i w 0 * (t - c) * (a - c))) with (nth i w 0 * (a - c) ^ 2) by ring.
  apply Rmult_le_pos; auto. apply pow2_ge_0.
Qed.
Lemma mle_of_score A A' X y p : (forall a b : R, A a + A' a * (b - a) <= A b) -> mwf X -> length y = nrows X -> length p = S (mcols X) ->
  (forall d, length d = S (mcols X) ->
    sumR (nrows X) (fun i => (nth i y 0 - A' (nth i (mat_vec (with_ones X) p) 0)) * nth i (mat_vec (with_ones X) d) 0) = 0) ->
  is_mle A X y p.
Proof.
  intros Cv W Ly Lp Sc. split; auto. intros q Lq. unfold loglik.
  assert (Ld : length (vsub q p) = S (mcols X)) by (rewrite vsub_len'; lia).
  specialize (Sc _ Ld). set (s := sumR _ _) in Sc.
  match goal with |- ?a <= ?b => enough (H : a - b <= s) by lra end.
  rewrite <- sumR_minus. unfold s. apply sumR_le. intros i Hi.
  rewrite eta_vsub by lia. rewrite !eta_affine by auto.
  pose proof (Cv (affine p (nth i (mrows X) [])) (affine q (nth i (mrows X) []))). nra.
Qed.
Lemma normal_convex (a b : R) : normal_cumulant a + a * (b - a) <= normal_cumulant b.
Proof. unfold normal_cumulant. pose proof (Rle_0_sqr (a - b)). unfold Rsqr in *. nra. Qed.
Lemma exp_tangent (a b : R) : exp a * (1 + (b - a)) <= exp b.
Proof.
  replace (exp b) with (exp a * exp (b - a)) by (rewrite <- exp_plus; f_equal; ring).
  apply Rmult_le_compat_l. { left. apply exp_pos. } apply exp_ineq1_le.
Qed.
Lemma poisson_convex (a b : R) : poisson_cumulant a + exp a * (b - a) <= poisson_cumulant b.
Proof. unfold poisson_cumulant. pose proof (exp_tangent a b). lra. Qed.
Lemma bernoulli_convex (a b : R) : bernoulli_cumulant a + (1 / (1 + exp (- a))) * (b - a) <= bernoulli_cumulant b.
Proof.
  unfold bernoulli_cumulant. pose proof (exp_pos a) as Pa. pose proof (exp_pos b) as Pb.
  set (s := 1 / (1 + exp (- a))). set (t := b - a).
  assert (Es : s = exp a / (1 + exp a)).
  { unfold s. rewrite exp_Ropp. field. split; lra. }
  rewrite <- (ln_exp (s * t)), <- ln_mult by (try apply exp_pos; lra).
  apply Rcomplements.ln_le. { apply Rmult_lt_0_compat; [lra|apply exp_pos]. }
  assert (Eb : exp b = exp a * exp t) by (unfold t; rewrite <- exp_plus; f_equal; ring).
  rewrite Eb. pose proof (exp_tangent (s * t) t) as T1. pose proof (exp_tangent (s * t) 0) as T0. rewrite exp_0 in T0.
  assert (Hs : s * (1 + exp a) = exp a) by (rewrite Es; field; lra).
  assert (T : exp (s * t) <= s * exp t + (1 - s)).
  { assert (0 <= s <= 1) by (split; nra).
    assert (s * (exp (s * t) * (1 + (t - s * t))) <= s * exp t) by (apply Rmult_le_compat_l; lra).
    assert ((1 - s) * (exp (s * t) * (1 + (0 - s * t))) <= (1 - s) * 1) by (apply Rmult_le_compat_l; lra).
    assert (Ex : s * (exp (s * t) * (1 + (t - s * t))) + (1 - s) * (exp (s * t) * (1 + (0 - s * t))) = exp (s * t)) by ring.
    lra. }
  apply (Rmult_le_compat_l (1 + exp a)) in T; [|lra].
  replace ((1 + exp a) * (s * exp t + (1 - s))) with (s * (1 + exp a) * exp t + ((1 + exp a) - s * (1 + exp a))) in T by ring.
  rewrite Hs in T. lra.
Qed.
