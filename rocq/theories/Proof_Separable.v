(** * Logistic regression on separable data *)
From Coq Require Import List Arith Lia Bool Reals Lra.
From Verif Require Import Base BaseLemmas Num NumFn Linalg LinalgR Euclid Spec_Calc CalcR MatR Proof_KMeans Model_Cost Proof_Cost
  Model_Toolkit Proof_Toolkit Model_Optim Spec_Optim Proof_Optim Proof_Optim2 Model_Regression Spec_Regression Proof_Regression Proof_Regression2 Proof_GLM2 Proof_Converge Proof_Converge2 Spec_Separable.
Import ListNotations.
Local Open Scope R_scope.

Lemma ln_le_sub x : 0 < x -> ln x <= x - 1.
Proof.
  intros H. destruct (Req_dec (x - 1) 0) as [E|E].
  - replace x with 1 by lra. rewrite ln_1. lra.
  - pose proof (exp_ineq1 (x - 1) E) as Q. replace (1 + (x - 1)) with x in Q by lra. apply Rlt_le. rewrite <- (ln_exp (x - 1)). now apply ln_increasing.
Qed.
Lemma exp_le a b : a <= b -> exp a <= exp b.
Proof. intros [H|E]; [left; now apply exp_increasing|right; now subst]. Qed.
Lemma sumR_term_le n f : (forall i, (i < n)%nat -> 0 <= f i) -> forall i, (i < n)%nat -> f i <= sumR n f.
Proof.
  intros P i Hi. induction n as [|n IH]; [lia|]. cbn [sumR]. destruct (Nat.eq_dec i n) as [->|].
  - assert (0 <= sumR n f). { rewrite <- (Rmult_0_r (INR n)), <- sumR_const. apply sumR_le. intros j Hj. apply P. lia. } lra.
  - assert (f i <= sumR n f) by (apply IH; [intros; apply P; lia|lia]). pose proof (P n ltac:(lia)). lra.
Qed.
Lemma affine_scale s (q x : list R) : affine (map (Rmult s) q) x = s * affine q x.
Proof.
  assert (E : forall k, nth k (map (Rmult s) q) 0 = s * nth k q 0).
  { intros k. rewrite <- (Rmult_0_r s) at 1. apply map_nth. }
  unfold affine. rewrite E, Rmult_plus_distr_l. f_equal. rewrite <- sumR_scal. apply sumR_ext. intros k _. rewrite E. ring.
Qed.

(** The loss of one row, and its lower and upper bounds. *)
Definition row_loss (t z : R) : R := - (t * ln (/ (1 + exp (- z))) + (1 - t) * ln (1 - / (1 + exp (- z)))).
Lemma row_loss_1 z : row_loss 1 z = ln (1 + exp (- z)).
Proof. unfold row_loss. pose proof (exp_pos (- z)). rewrite ln_Rinv by lra. ring. Qed.
Lemma row_loss_0 z : row_loss 0 z = ln (1 + exp z).
Proof.
  unfold row_loss. pose proof (exp_pos (- z)). pose proof (exp_pos z).
  replace (1 - / (1 + exp (- z))) with (/ (1 + exp z)); [rewrite (ln_Rinv (1 + exp z)) by lra; ring|]. rewrite exp_Ropp in *. field. lra.
Qed.
Lemma log_loss_rows X y p : log_loss X y p = sumR (nrows X) (fun i => row_loss (nth i y 0) (affine p (nth i (mrows X) []))) / INR (nrows X).
Proof. reflexivity. Qed.
Lemma ln_1p_pos u : 0 < ln (1 + exp u).
Proof. rewrite <- ln_1. pose proof (exp_pos u). apply ln_increasing; lra. Qed.
Lemma ln_1p_le u : ln (1 + exp u) <= exp u.
Proof. pose proof (exp_pos u). pose proof (ln_le_sub (1 + exp u) ltac:(lra)). lra. Qed.
Lemma row_loss_pos t z : t = 0 \/ t = 1 -> 0 < row_loss t z.
Proof. intros [->| ->]; [rewrite row_loss_0|rewrite row_loss_1]; apply ln_1p_pos. Qed.

Section Sep.
  Context (X : matrix R) (y q : list R) (g : R).
  Hypothesis Nz : (0 < nrows X)%nat.
  Hypothesis S0 : separates X y q g.

  Lemma target01 i : (i < nrows X)%nat -> nth i y 0 = 0 \/ nth i y 0 = 1.
  Proof. intros H. destruct S0 as [_ S1]. destruct (S1 i H) as [[-> _]|[-> _]]; auto. Qed.

  (** A misclassified row costs at least [ln 2]. *)
  Lemma loss_right p : log_loss X y p < ln 2 / INR (nrows X) -> forall i, (i < nrows X)%nat ->
    (nth i y 0 = 1 -> 0 < affine p (nth i (mrows X) [])) /\ (nth i y 0 = 0 -> affine p (nth i (mrows X) []) < 0).
  Proof.
    intros L i Hi. assert (NN : 0 < INR (nrows X)) by (now apply lt_0_INR).
    rewrite log_loss_rows in L.
    assert (B : sumR (nrows X) (fun i => row_loss (nth i y 0) (affine p (nth i (mrows X) []))) < ln 2).
    { apply (Rmult_lt_compat_r (INR (nrows X))) in L; auto. unfold Rdiv in L. rewrite !Rmult_assoc, Rinv_l, !Rmult_1_r in L by lra. exact L. }
    assert (Bi : row_loss (nth i y 0) (affine p (nth i (mrows X) [])) < ln 2).
    { eapply Rle_lt_trans; [|exact B]. apply (sumR_term_le (nrows X) (fun i => row_loss (nth i y 0) (affine p (nth i (mrows X) [])))) with (i := i); auto.
      intros j Hj. apply Rlt_le, row_loss_pos. now apply target01. }
    set (z := affine p (nth i (mrows X) [])) in *. split; intros E; rewrite E in Bi.
    - rewrite row_loss_1 in Bi. apply ln_lt_inv in Bi; [|pose proof (exp_pos (- z)); lra|lra].
      assert (exp (- z) < exp 0) by (rewrite exp_0; lra). apply exp_lt_inv in H. lra.
    - rewrite row_loss_0 in Bi. apply ln_lt_inv in Bi; [|pose proof (exp_pos z); lra|lra].
      assert (exp z < exp 0) by (rewrite exp_0; lra). apply exp_lt_inv in H. lra.
  Qed.

  Lemma scaled_loss s : 0 <= s -> log_loss X y (map (Rmult s) q) <= exp (- (s * g)).
  Proof.
    intros Hs. assert (NN : 0 < INR (nrows X)) by (now apply lt_0_INR). rewrite log_loss_rows.
    apply Rmult_le_reg_r with (INR (nrows X)); auto. unfold Rdiv. rewrite Rmult_assoc, Rinv_l, Rmult_1_r by lra.
    rewrite (Rmult_comm (exp _)). rewrite <- sumR_const. apply sumR_le. intros i Hi. rewrite affine_scale.
    destruct S0 as [_ S1]. destruct (S1 i Hi) as [[-> M]|[-> M]].
    - rewrite row_loss_1. eapply Rle_trans; [apply ln_1p_le|]. apply exp_le. pose proof (Rmult_le_compat_l s _ _ Hs M). lra.
    - rewrite row_loss_0. eapply Rle_trans; [apply ln_1p_le|]. apply exp_le. pose proof (Rmult_le_compat_l s _ _ Hs M). lra.
  Qed.
  Lemma loss_positive p : 0 < log_loss X y p.
  Proof.
    assert (NN : 0 < INR (nrows X)) by (now apply lt_0_INR). rewrite log_loss_rows. apply Rdiv_lt_0_compat; auto.
    eapply Rlt_le_trans; [apply (row_loss_pos (nth 0 y 0) (affine p (nth 0 (mrows X) []))); now apply target01|].
    apply (sumR_term_le (nrows X) (fun i => row_loss (nth i y 0) (affine p (nth i (mrows X) [])))) with (i := 0%nat); auto.
    intros j Hj. apply Rlt_le, row_loss_pos. now apply target01.
  Qed.
End Sep.

Lemma nth_scale s (q : list R) k : nth k (map (Rmult s) q) 0 = s * nth k q 0.
Proof. rewrite <- (Rmult_0_r s) at 1. apply map_nth. Qed.
Lemma sumR_sq_nonneg n (f : nat -> R) : 0 <= sumR n (fun k => f k ^ 2).
Proof. induction n; cbn [sumR]; [lra|]. pose proof (pow2_ge_0 (f n)). lra. Qed.

Lemma sigmoid_half z : (0 < z -> 1 / 2 < / (1 + exp (- z))) /\ (z < 0 -> / (1 + exp (- z)) < 1 / 2).
Proof.
  pose proof (exp_pos (- z)). split; intros H0.
  - assert (exp (- z) < exp 0) by (apply exp_increasing; lra). rewrite exp_0 in *. unfold Rdiv. rewrite Rmult_1_l. apply Rinv_lt_contravar; nra.
  - assert (exp 0 < exp (- z)) by (apply exp_increasing; lra). rewrite exp_0 in *. unfold Rdiv. rewrite Rmult_1_l. apply Rinv_lt_contravar; nra.
Qed.

Theorem log_separable gd (self : LogisticRegressor R) X y q g L : mwf X -> (0 < nrows X)%nat -> length y = nrows X ->
  (forall x, In x (mrows X) -> 1 + sqnorm x <= L) -> 0 < gd_alpha gd -> gd_alpha gd * L <= 4 ->
  0 < g -> separates X y q g -> 2 * INR (nrows X) <= 10 ^ 20 ->
  2 * INR (nrows X) * reach X q g < gd_alpha gd * INR (gd_iters gd) -> 32 * INR (nrows X) ^ 2 * reach X q g <= 10 ^ 20 * gd_alpha gd ->
  exists self' out, log_train (gd_optimize gd) self X y = (self', Ok tt) /\ log_predict self' X = Ok out /\ all_right y out.
Proof.
  intros W Hn Ly HL A0 A1 G S0 N20 I1 I2. assert (NN : 0 < INR (nrows X)) by (now apply lt_0_INR).
  assert (N1 : 1 <= INR (nrows X)). { change 1 with (INR 1). apply le_INR. lia. }
  destruct (log_gd_rate gd self X y L W Hn Ly HL A0 A1) as (self' & p & T & P & Lp & _ & R).
  exists self'. set (s := ln (4 * INR (nrows X)) / g).
  assert (Hs : 0 <= s). { apply Rlt_le, Rdiv_lt_0_compat; auto. rewrite <- ln_1. apply ln_increasing; lra. }
  specialize (R (map (Rmult s) q)). rewrite map_length in R. specialize (R (proj1 S0)). cbv zeta in R.
  rewrite (sumR_ext _ _ (fun k => (1 / 2 - s * nth k q 0) ^ 2)) in R by (intros; now rewrite nth_scale).
  change (sumR (S (mcols X)) (fun k => (1 / 2 - s * nth k q 0) ^ 2)) with (reach X q g) in R.
  assert (D0 : 0 <= reach X q g) by (apply (sumR_sq_nonneg _ (fun k => 1 / 2 - ln (4 * INR (nrows X)) / g * nth k q 0))).
  assert (Q : log_loss X y (map (Rmult s) q) <= / (4 * INR (nrows X))).
  { eapply Rle_trans; [apply (scaled_loss X y q g Hn S0 s Hs)|]. unfold s.
    replace (ln (4 * INR (nrows X)) / g * g) with (ln (4 * INR (nrows X))) by (field; lra). rewrite exp_Ropp, exp_ln by lra. lra. }
  set (D := reach X q g) in *. set (N := INR (nrows X)) in *. set (aT := gd_alpha gd * INR (gd_iters gd)) in *.
  assert (B : log_loss X y p <= / (2 * N)).
  { assert (E : / (2 * N) = / (4 * N) + / (4 * N)) by (field; lra).
    assert (iN : 0 < / (4 * N)) by (apply Rinv_0_lt_compat; lra).
    assert (iN1 : / (4 * N) * (4 * N) = 1) by (apply Rinv_l; lra).
    destruct R as [R|[R|R]].
    - rewrite E. enough (log_loss X y p - log_loss X y (map (Rmult s) q) <= / (4 * N)) by lra.
      set (x := log_loss X y p - log_loss X y (map (Rmult s) q)) in *.
      replace (2 * gd_alpha gd * INR (gd_iters gd) * x) with (2 * aT * x) in R by (unfold aT; ring).
      destruct (Rle_dec x (/ (4 * N))) as [|C]; auto. apply Rnot_le_lt in C. exfalso.
      assert (0 < aT) by nra. assert (2 * aT * / (4 * N) < 2 * aT * x) by (apply Rmult_lt_compat_l; lra).
      assert (D < 2 * aT * / (4 * N)). { replace D with (4 * N * D * / (4 * N)) by (field; lra). apply Rmult_lt_compat_r; lra. } lra.
    - rewrite E. enough (sqrt (2 * / 10 ^ 20 / gd_alpha gd) * sqrt D <= / (4 * N)) by lra.
      assert (P20 : 0 < 10 ^ 20) by (apply pow_lt; lra). set (K := 10 ^ 20) in *.
      assert (Z : 0 <= 2 * / K / gd_alpha gd). { apply Rlt_le, Rdiv_lt_0_compat; auto. pose proof (Rinv_0_lt_compat K P20). lra. }
      rewrite <- sqrt_mult by auto. rewrite <- (sqrt_pow2 (/ (4 * N))) by lra. apply sqrt_le_1_alt.
      apply Rmult_le_reg_r with (K * gd_alpha gd * (4 * N) ^ 2); [apply Rmult_lt_0_compat; [nra|apply pow_lt; lra]|].
      replace (2 * / K / gd_alpha gd * D * (K * gd_alpha gd * (4 * N) ^ 2)) with (32 * N ^ 2 * D) by (field; lra).
      replace ((/ (4 * N)) ^ 2 * (K * gd_alpha gd * (4 * N) ^ 2)) with (K * gd_alpha gd) by (field; lra). exact I2.
    - assert (/ 10 ^ 20 <= / (2 * N)) by (apply Rinv_le_contravar; lra). lra. }
  assert (C : log_loss X y p < ln 2 / N).
  { eapply Rle_lt_trans; [exact B|]. rewrite Rinv_mult. unfold Rdiv. apply Rmult_lt_compat_r; [apply Rinv_0_lt_compat; lra|apply ln_lt_2]. }
  pose proof (loss_right X y q g Hn S0 p C) as RR.
  unfold log_predict. rewrite P, rmat_vec_eq by (cbn; auto). cbn [rbind]. rewrite mat_vec_ones by auto.
  exists (map sigmoid (map (affine p) (mrows X))). split; [exact T|]. split; [reflexivity|].
  split; [rewrite !map_length; unfold nrows in Ly; lia|]. rewrite Ly. intros i Hi. rewrite map_map.
  rewrite (nth_map (fun x => sigmoid (affine p x)) _ _ _ []) by exact Hi. rewrite sigmoid_R.
  destruct (sigmoid_half (affine p (nth i (mrows X) []))) as [U V]. destruct (RR i Hi) as [R1 R0].
  split; intros E; [apply U, R1, E|apply V, R0, E].
Qed.

Theorem log_no_best X y q g : (0 < nrows X)%nat -> 0 < g -> separates X y q g ->
  (forall eps, 0 < eps -> exists p, length p = S (mcols X) /\ log_loss X y p < eps) /\
  (forall p, exists p', length p' = S (mcols X) /\ log_loss X y p' < log_loss X y p).
Proof.
  intros Hn G S0.
  assert (A : forall eps, 0 < eps -> exists p, length p = S (mcols X) /\ log_loss X y p < eps).
  { intros eps He. exists (map (Rmult (/ (eps * g))) q). split; [rewrite map_length; apply S0|].
    assert (Pg : 0 < eps * g) by nra. eapply Rle_lt_trans; [apply (scaled_loss X y q g Hn S0); apply Rlt_le, Rinv_0_lt_compat, Pg|].
    replace (/ (eps * g) * g) with (/ eps) by (field; lra). rewrite exp_Ropp. rewrite <- (Rinv_inv eps) at 2.
    assert (0 < / eps) by (apply Rinv_0_lt_compat, He). pose proof (exp_ineq1 (/ eps) ltac:(lra)). apply Rinv_lt_contravar; [|lra].
    apply Rmult_lt_0_compat; [lra|apply exp_pos]. }
  split; [exact A|]. intros p. apply A. apply (loss_positive X y q g Hn S0).
Qed.

Lemma ln_le a b : 0 < a -> a <= b -> ln a <= ln b.
Proof. intros P [H|E]; [left; now apply ln_increasing|right; now subst]. Qed.
Lemma ln12 : ln 12 <= 3.
Proof.
  rewrite <- (ln_exp 3). apply ln_le; [lra|].
  assert (H : 5 / 4 <= exp (/ 4)) by (pose proof (exp_ineq1 (/ 4) ltac:(lra)); lra).
  assert (H2 : 25 / 16 <= exp (/ 2)) by (replace (/ 2) with (/ 4 + / 4) by lra; rewrite exp_plus; nra).
  assert (H3 : 2.4 <= exp 1) by (replace 1 with (/ 2 + / 2) by lra; rewrite exp_plus; nra).
  assert (H4 : 5 <= exp 2) by (replace 2 with (1 + 1) by lra; rewrite exp_plus; nra).
  replace 3 with (2 + 1) by lra. rewrite exp_plus. nra.
Qed.
Lemma separable_ex : let X := Mat [[1]; [-1]; [1 / 2]] 1 in let gd := {| gd_alpha := 2; gd_iters := 100 |} in
  mwf X /\ (0 < nrows X)%nat /\ length [1; 0; 1] = nrows X /\ (forall x, In x (mrows X) -> 1 + sqnorm x <= 2) /\ 0 < gd_alpha gd /\ gd_alpha gd * 2 <= 4 /\
  0 < 1 / 2 /\ separates X [1; 0; 1] [0; 1] (1 / 2) /\ 2 * INR (nrows X) <= 10 ^ 20 /\
  2 * INR (nrows X) * reach X [0; 1] (1 / 2) < gd_alpha gd * INR (gd_iters gd) /\
  32 * INR (nrows X) ^ 2 * reach X [0; 1] (1 / 2) <= 10 ^ 20 * gd_alpha gd.
Proof.
  cbv zeta. cbn [gd_alpha gd_iters].
  assert (N : INR (nrows (Mat [[1]; [-1]; [1 / 2]] 1)) = 3) by (cbn; lra).
  assert (B : 0 <= reach (Mat [[1]; [-1]; [1 / 2]] 1) [0; 1] (1 / 2) <= 31).
  { unfold reach. rewrite N. replace (4 * 3) with 12 by lra. cbn [mcols sumR nth].
    pose proof ln12. assert (0 <= ln 12) by (rewrite <- ln_1; apply ln_le; lra). split; [|nra].
    pose proof (pow2_ge_0 (1 / 2 - ln 12 / (1 / 2) * 0)). pose proof (pow2_ge_0 (1 / 2 - ln 12 / (1 / 2) * 1)). lra. }
  assert (K : 10 ^ 20 = 100000000000000000000) by (cbn; lra). assert (T : INR 100 = 100) by (cbn; lra).
  rewrite N, K, T. set (D := reach _ _ _) in *. clearbody D.
  split; [unfold mwf; cbn; repeat (constructor; [reflexivity|]); constructor|]. split; [cbn; lia|]. split; [reflexivity|].
  split; [intros x [<-|[<-|[<-|[]]]]; unfold sqnorm; cbn; lra|]. split; [lra|]. split; [lra|]. split; [lra|].
  split; [|split; [|split]; nra].
  split; [reflexivity|]. intros [|[|[|i]]] Hi; [left|right|left|cbn in Hi; lia]; unfold affine; cbn; split; lra.
Qed.
