(** A fixed point of the Bernoulli iteration that is not a maximum-likelihood estimate: one mean is so small
    that the code replaces its weight by 1e-5. *)
From Coq Require Import List Arith Lia Bool Reals Lra.
From Coquelicot Require Import Coquelicot.
From Verif Require Import Base BaseLemmas Num NumFn Linalg LinalgR Spec_Calc CalcR MatR Proof_KMeans Model_Optim Proof_Optim Proof_Optim2
  Proof_Toolkit Model_Regression Spec_Regression Proof_Regression Model_GLM Spec_GLM Proof_GLM Proof_GLM2 Proof_GLMEx.
Import ListNotations.
Local Open Scope R_scope.

Definition X012 : matrix R := Mat [[0]; [1]; [2]] 1.
Lemma pass012 cr mu y (w0 w1 w2 b t : R) : 0 < w0 -> 0 < w1 -> 0 < w2 -> cr_working_weight cr mu = Ok [w0; w1; w2] ->
  cr_y_bar cr y mu = [t / w0; - 2 * t / w1; t / w2] -> map (lk_inv (cr_link cr)) [0; b; 2 * b] = mu ->
  glm_pass inverse2 cr (with_ones X012) y mu [t / w0; b - 2 * t / w1; 2 * b + t / w2] = Ok ([0; b], mu, [t / w0; b - 2 * t / w1; 2 * b + t / w2]).
Proof.
  intros P0 P1 P2 E Ey El. unfold glm_pass. rewrite E. cbn [rbind]. rewrite Ey.
  assert (EA : mat_mul (mat_mul (transpose (with_ones X012)) (from_diag [w0; w1; w2])) (with_ones X012) = Mat [[w0 + w1 + w2; w1 + 2 * w2]; [w1 + 2 * w2; w1 + 4 * w2]] 2).
  { unfold X012. expand. apply (f_equal2 Mat); [|reflexivity]. apply (f_equal2 (@cons (list R))); [list_eq; ring|]. apply (f_equal2 (@cons (list R))); [list_eq; ring|reflexivity]. }
  assert (D : (w0 + w1 + w2) * (w1 + 4 * w2) - (w1 + 2 * w2) * (w1 + 2 * w2) <> 0).
  { apply Rgt_not_eq. replace (_ - _) with (w0 * w1 + 4 * (w0 * w2) + w1 * w2) by ring. pose proof (Rmult_lt_0_compat _ _ P0 P1). pose proof (Rmult_lt_0_compat _ _ P0 P2). pose proof (Rmult_lt_0_compat _ _ P1 P2). lra. }
  rewrite EA. unfold inverse2. destruct (Req_EM_T _ _) as [D'|D']; [exfalso; auto|].
  set (v := mat_vec _ _).
  assert (Eb : v = [0; b]).
  { unfold v, X012. expand. list_eq; field; repeat split; auto; lra. }
  assert (Ef : mat_vec (with_ones X012) v = [0; b; 2 * b]).
  { rewrite Eb. unfold X012. expand. list_eq; ring. }
  rewrite Ef, Eb, El. do 2 f_equal. cbn. list_eq; field; lra.
Qed.

Definition m1 : R := 1 / 1001.
Definition m2 : R := 1 / 1000001.
Definition v2 : R := m2 * (1 - m2).
Definition ymu : list R := [1 / 2; m1; m2].
Definition ytar : list R := [1 / 2 + 1 / 10000; m1 - 2 / 10000; m2 + 10 * v2].
Definition zfix : list R := [1 / 10000 / (1 / 4); - ln 1000 - 2 * (1 / 10000) / (m1 * (1 - m1)); 2 * - ln 1000 + 1 / 10000 / (1 / 10 ^ 5)].

Lemma bvar m : 1 / 10 ^ 10 <= m * (1 - m) -> bern_variance m = m * (1 - m).
Proof.
  intros H. assert (0 < 1 / 10 ^ 10) by lra. unfold bern_variance. cbv zeta. cbn [nsub nmul NumR nabs nonev]. rewrite Rabs_pos_eq by lra.
  replace (nltb (m * (1 - m)) (tiny 10)) with false; [reflexivity|]. symmetry. apply nltb_R_false. rewrite tiny_R. lra.
Qed.
Lemma clip_id v : 1 / 10 ^ 5 <= v -> clip_weight v = v.
Proof.
  intros H. assert (0 < 1 / 10 ^ 5) by lra. unfold clip_weight. cbn [nabs NumR]. rewrite Rabs_pos_eq by lra.
  replace (nltb v (tiny 5)) with false; [reflexivity|]. symmetry. apply nltb_R_false. rewrite tiny_R. lra.
Qed.
Lemma clip_low v : 0 <= v < 1 / 10 ^ 5 -> clip_weight v = 1 / 10 ^ 5.
Proof.
  intros H. unfold clip_weight. cbn [nabs NumR]. rewrite Rabs_pos_eq by lra.
  replace (nltb v (tiny 5)) with true; [now rewrite tiny_R|]. symmetry. apply nltb_R'. rewrite tiny_R. lra.
Qed.
Lemma ybar_big t m : 1 / 10 ^ 15 <= Rabs (t - m) ->
  (if nltb (Rabs (t - m)) (tiny 15) then nzero else nmul (lk_grad Logit m) (t - m)) = 1 / (m * (1 - m)) * (t - m).
Proof.
  intros H. replace (nltb (Rabs (t - m)) (tiny 15)) with false by (symmetry; apply nltb_R_false; rewrite tiny_R; lra). reflexivity.
Qed.
Lemma logistic_ln o : 0 < o -> lk_inv (cr_link Bernoulli) (- ln o) = 1 / (1 + o).
Proof. intros H. cbn. rewrite Ropp_involutive, exp_ln by auto. reflexivity. Qed.

Lemma clipped_fixed : glm_pass inverse2 Bernoulli (with_ones X012) ytar ymu zfix = Ok ([0; - ln 1000], ymu, zfix).
Proof.
  apply (pass012 Bernoulli ymu ytar (1 / 4) (m1 * (1 - m1)) (1 / 10 ^ 5) (- ln 1000) (1 / 10000)); unfold m1; try lra.
  - cbn [cr_working_weight Bernoulli ymu map]. rewrite !bvar by (unfold m1, m2; lra). rewrite (clip_id (1/2 * _)), (clip_id (m1 * _)), clip_low by (unfold m1, m2; lra).
    do 2 f_equal. unfold m1. lra.
  - cbn [cr_y_bar Bernoulli bern_y_bar map2 ytar ymu]. cbv zeta. cbn [nsub NumR nabs].
    assert (A0 : 1 / 10 ^ 15 <= Rabs (1 / 2 + 1 / 10000 - 1 / 2)) by (rewrite Rabs_pos_eq; lra).
    assert (A1 : 1 / 10 ^ 15 <= Rabs (m1 - 2 / 10000 - m1)) by (rewrite Rabs_left; lra).
    assert (A2 : 1 / 10 ^ 15 <= Rabs (m2 + 10 * v2 - m2)) by (unfold v2, m2; rewrite Rabs_pos_eq; lra).
    rewrite (ybar_big _ _ A0), (ybar_big _ _ A1), (ybar_big _ _ A2). unfold v2, m1, m2. list_eq; field.
  - cbn [map]. unfold ymu. list_eq.
    + replace 0 with (- ln 1) by (rewrite ln_1; ring). rewrite logistic_ln by lra. lra.
    + rewrite logistic_ln by lra. unfold m1. lra.
    + replace (2 * - ln 1000) with (- ln (1000 * 1000)) by (rewrite ln_mult by lra; ring). rewrite logistic_ln by lra. unfold m2. lra.
Qed.

Lemma score_zero (f : R -> R) (d : R) : (forall s, f s <= f 0) -> is_derive f 0 d -> d = 0.
Proof.
  intros M D. apply is_derive_Reals in D. pose (pr := exist _ d D : derivable_pt f 0).
  change d with (derive_pt f 0 pr). apply (deriv_maximum f (-1) 1 0 pr); try lra. intros; apply M.
Qed.
Lemma clipped_not_mle : ~ is_mle bernoulli_cumulant X012 ytar [0; - ln 1000].
Proof.
  intros [_ H]. set (y0 := 1 / 2 + 1 / 10000). set (y1 := m1 - 2 / 10000). set (y2 := m2 + 10 * v2).
  set (L := ln 1000).
  pose (f := fun s : R => y0 * 0 - ln (1 + exp 0) + (y1 * (- L + s) - ln (1 + exp (- L + s))) + (y2 * (2 * (- L + s)) - ln (1 + exp (2 * (- L + s))))).
  assert (Ef : forall s, loglik bernoulli_cumulant X012 ytar [0; - L + s] = f s).
  { intros s. unfold f, loglik, bernoulli_cumulant, affine. cbn [X012 nrows mrows length sumR nth ytar]. fold y0 y1 y2.
    replace (0 + (0 + (- L + s) * 0)) with 0 by ring. replace (0 + (0 + (- L + s) * 1)) with (- L + s) by ring.
    replace (0 + (0 + (- L + s) * 2)) with (2 * (- L + s)) by ring. ring. }
  assert (M : forall s, f s <= f 0).
  { intros s. rewrite <- !Ef. rewrite (Rplus_0_r (- L)). apply H. reflexivity. }
  assert (D : is_derive f 0 (y1 - m1 + 2 * (y2 - m2))).
  { unfold f. pose proof (exp_pos (- L + 0)). pose proof (exp_pos (2 * (- L + 0))).
    assert (E1 : exp (- L + 0) = / 1000). { rewrite Rplus_0_r, exp_Ropp. unfold L. now rewrite exp_ln by lra. }
    assert (E2 : exp (2 * (- L + 0)) = / 1000 * / 1000). { replace (2 * (- L + 0)) with ((- L + 0) + (- L + 0)) by ring. now rewrite exp_plus, E1. }
    auto_derive; [repeat split; lra|]. rewrite E1, E2. unfold m1, m2. field. }
  apply score_zero in D; auto. unfold y1, y2, v2, m1, m2 in D. lra.
Qed.
Theorem bernoulli_clipped : exists X y mu z b, mwf X /\ length y = nrows X /\ length mu = nrows X /\ length z = nrows X /\
  (forall i, (i < nrows X)%nat -> 0 < nth i y 0 < 1) /\
  glm_pass inverse2 Bernoulli (with_ones X) y mu z = Ok (b, mu, z) /\ ~ is_mle bernoulli_cumulant X y b.
Proof.
  exists X012, ytar, ymu, zfix, [0; - ln 1000]. split; [repeat constructor|]. do 3 (split; [reflexivity|]). split; [|split; [exact clipped_fixed|exact clipped_not_mle]].
  intros i Hi. cbn in Hi. unfold ytar, m1, m2, v2, m2. destruct i as [|[|[|i]]]; cbn [nth]; try lia; lra.
Qed.

(** A constant column: the Gram matrix is singular. *)
Lemma constant_column_panics : glm_train inverse2 Normal glm_new (Mat [[1]; [1]] 1) [1; 3] = (glm_new, Panic).
Proof.
  apply (glm_train_singular inverse2 Normal glm_new (Mat [[1]; [1]] 1) [1; 3] [1; 1]); [reflexivity| |].
  - cbn [cr_working_weight Normal cr_initialize_mu]. now rewrite normal_weight.
  - assert (EA : mat_mul (mat_mul (transpose (with_ones (Mat [[1]; [1]] 1))) (from_diag [1; 1])) (with_ones (Mat [[1]; [1]] 1)) = Mat [[2; 2]; [2; 2]] 2).
    { expand. apply (f_equal2 Mat); [|reflexivity]. apply (f_equal2 (@cons (list R))); [list_eq; ring|]. apply (f_equal2 (@cons (list R))); [list_eq; ring|reflexivity]. }
    rewrite EA. unfold inverse2. destruct (Req_EM_T _ _) as [D|D]; [reflexivity|]. exfalso. apply D. ring.
Qed.
