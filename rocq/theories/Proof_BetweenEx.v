(** Concrete cases for [Props_Between]. *)
From Coq Require Import List Arith Lia Bool Reals Lra.
From Verif Require Import Base BaseLemmas Num NumFn NumSign NumOrd Linalg LinalgR Model_Optim Model_Toolkit Model_Regression Model_GLM Model_Kernel Model_GP Model_SVM Model_KMeans Model_NaiveBayes
  Spec_Between Spec_Calc Spec_NaiveBayes Proof_NaiveBayesMAP Proof_NaiveBayesEx Proof_SVM Proof_Between.
Import ListNotations.
Local Open Scope R_scope.

(** Two classes centred on 0, one narrow (-1, 1) and one wide (-2, 2). *)
Definition wide_inputs : matrix R := Mat [[-1]; [1]; [-2]; [2]] 1.
Lemma wide_mean c : (c < 2)%nat -> cls_mean wide_inputs ex_cs c 0 = 0.
Proof. intros Hc. destruct c as [|[|c]]; [| |lia]; unfold cls_mean, csum, cnt, entry; cbn; lra. Qed.
Lemma wide_var c : (c < 2)%nat -> cls_var wide_inputs ex_cs c 0 = if (c =? 0)%nat then 2 else 8.
Proof. intros Hc. unfold cls_var. rewrite wide_mean by exact Hc. destruct c as [|[|c]]; [| |lia]; unfold cnt, entry; cbn; lra. Qed.
Lemma wide_prior c : (c < 2)%nat -> prior wide_inputs ex_cs c = 1 / 2.
Proof. intros Hc. destruct c as [|[|c]]; [| |lia]; unfold prior, cnt, entry; cbn; lra. Qed.
Lemma wide_sqrt : sqrt (2 * PI * 8) = 2 * sqrt (2 * PI * 2).
Proof.
  pose proof PI_RGT_0. replace (2 * PI * 8) with (2 * 2 * (2 * PI * 2)) by ring. rewrite sqrt_mult by lra. f_equal. apply sqrt_square. lra.
Qed.
Lemma wide_pdf_pos v x : 0 < v -> 0 < normal_pdf 0 v x.
Proof. intros H. unfold normal_pdf. apply Rdiv_lt_0_compat; [apply exp_pos|]. apply sqrt_lt_R0. pose proof PI_RGT_0. nra. Qed.
Lemma wide_ll c x : (c < 2)%nat -> gauss_ll wide_inputs ex_cs c [x] = ln (1 / 2) + ln (normal_pdf 0 (if (c =? 0)%nat then 2 else 8) x).
Proof. intros Hc. unfold gauss_ll. cbn [wide_inputs mcols sumR]. fold wide_inputs. rewrite wide_prior, wide_mean, wide_var by exact Hc. cbn. ring. Qed.
Lemma wide_at_0 : normal_pdf 0 8 0 < normal_pdf 0 2 0.
Proof.
  unfold normal_pdf. rewrite wide_sqrt. replace (- (0 - 0) ^ 2 / (2 * 8)) with 0 by field. replace (- (0 - 0) ^ 2 / (2 * 2)) with 0 by field. rewrite exp_0.
  assert (0 < sqrt (2 * PI * 2)) by (apply sqrt_lt_R0; pose proof PI_RGT_0; lra). unfold Rdiv. rewrite !Rmult_1_l. apply Rinv_lt_contravar; nra.
Qed.
Lemma wide_at_3 x : x = 3 \/ x = -3 -> normal_pdf 0 2 x < normal_pdf 0 8 x.
Proof.
  intros Hx. unfold normal_pdf. rewrite wide_sqrt. assert (S : 0 < sqrt (2 * PI * 2)) by (apply sqrt_lt_R0; pose proof PI_RGT_0; lra).
  replace (- (x - 0) ^ 2 / (2 * 2)) with (- (27 / 16) + - (x - 0) ^ 2 / (2 * 8)) by (destruct Hx as [-> | ->]; field). rewrite exp_plus, exp_Ropp. set (e := exp (- (x - 0) ^ 2 / (2 * 8))). assert (0 < e) by apply exp_pos.
  pose proof (exp_ineq1 (27 / 16) ltac:(lra)) as G. set (g := exp (27 / 16)) in *. set (s := sqrt (2 * PI * 2)) in *.
  apply Rmult_lt_reg_r with (2 * s * g); [nra|]. replace (/ g * e / s * (2 * s * g)) with (2 * e) by (field; lra). replace (e / (2 * s) * (2 * s * g)) with (e * g) by (field; lra). nra.
Qed.
Theorem gaussian_split (m : NaiveBayes R (Gauss R)) : exists m' out, nb_train Gaussian m wide_inputs ex_targets = (m', Ok tt) /\
  nb_predict Gaussian m' (Mat [[3]; [-3]; mix (1 / 2) [3] [-3]] 1) = Ok out /\ mrows out = [[0; 1]; [0; 1]; [1; 0]].
Proof.
  destruct (gauss_map wide_inputs ex_targets (Mat [[3]; [-3]; mix (1 / 2) [3] [-3]] 1) ex_cs ltac:(repeat constructor) eq_refl ex_labelled
    ltac:(intros [|[|c]] Hc; cbn in *; lia) ltac:(cbn; lia) ltac:(repeat constructor) eq_refl m ltac:(intros [|[|c]] Hc; cbn in *; lia)) as (m' & out & E & E' & L & Q).
  { intros c [|j] Hc Hj; [|cbn in Hj; lia]. rewrite wide_var by exact Hc. destruct (c =? 0)%nat; lra. }
  exists m', out. split; [exact E|]. split; [exact E'|].
  assert (B : forall x c, is_best 2 (fun c => gauss_ll wide_inputs ex_cs c [x]) c -> (normal_pdf 0 2 x < normal_pdf 0 8 x -> c = 1%nat) /\ (normal_pdf 0 8 x < normal_pdf 0 2 x -> c = 0%nat)).
  { intros x c (C1 & C2 & _). split; intros H.
    - destruct c as [|[|c]]; [|reflexivity|lia]. exfalso. specialize (C2 1%nat ltac:(lia)). apply nltb_R_false in C2. rewrite !wide_ll in C2 by lia. cbn in C2. apply (ln_increasing _ _ (wide_pdf_pos 2 x ltac:(lra))) in H. lra.
    - destruct c as [|[|c]]; [reflexivity| |lia]. exfalso. specialize (C2 0%nat ltac:(lia)). apply nltb_R_false in C2. rewrite !wide_ll in C2 by lia. cbn in C2. apply (ln_increasing _ _ (wide_pdf_pos 8 x ltac:(lra))) in H. lra. }
  unfold nrows in L. cbn [mrows length] in L. destruct (mrows out) as [|r0 [|r1 [|r2 [|]]]]; cbn in L; try discriminate.
  destruct (Q 0%nat ltac:(cbn; lia)) as (c0 & R0 & B0). destruct (Q 1%nat ltac:(cbn; lia)) as (c1 & R1 & B1). destruct (Q 2%nat ltac:(cbn; lia)) as (c2 & R2 & B2).
  cbn [nth mrows mcols ex_targets] in R0, R1, R2, B0, B1, B2. apply B in B0, B1. apply (B (1 / 2 * 3 + (1 - 1 / 2) * -3) c2) in B2.
  rewrite (proj1 B0 (wide_at_3 3 ltac:(auto))) in R0. rewrite (proj1 B1 (wide_at_3 (-3) ltac:(auto))) in R1. replace (1 / 2 * 3 + (1 - 1 / 2) * -3) with 0 in B2 by field. rewrite (proj2 B2 wide_at_0) in R2.
  subst. reflexivity.
Qed.
(** Regression through the line with intercept 1 and slope 2. *)
Definition line_lr : LinRegressor R := {| lr_parameters := Some [1; 2] |}.
Lemma line_lr_at x : lr_predict line_lr (query [x]) = Ok [1 + 2 * x].
Proof. unfold lr_predict, query, rmat_vec, mat_vec, with_ones. cbn. unfold dot, vsum. cbn. do 2 f_equal. ring. Qed.
(** Two centroids on the line. *)
Definition line_km : matrix R := Mat [[0]; [4]] 1.
Lemma line_km_closest x : 2 < x -> argmin (map (fun c => sqdist c [x]) (mrows line_km)) = Ok (1%nat, (4 - x) * (4 - x)).
Proof.
  intros H. unfold line_km, sqdist, vsum. cbn [mrows map vsub velemul map2 fold_left length]. cbn. destruct (Rlt_dec _ _) as [_|Q]; [do 2 f_equal; ring|exfalso; apply Q; nra].
Qed.
(** The side of -1 a number is on. *)
Definition line_svm : SVM R := {| svm_alpha := Some [1]; svm_train_inputs := Some (Mat [[1; 1]] 2); svm_train_targets := Some [1]; svm_lambda := 1; svm_optim_iters := 1 |}.
Lemma line_svm_at x : -1 < x -> svm_predict (k_linear 0) line_svm (query [x]) = Ok [1].
Proof.
  intros H. unfold svm_predict, line_svm, ker_mat, query, with_ones, rmat_vec, mat_vec, k_linear. cbn -[nsignum]. rewrite nsignum_R. unfold dot, vsum. cbn. destruct (Rlt_dec _ 0) as [Q|_]; [exfalso; lra|reflexivity].
Qed.
(** The logistic curve through 1/2 at 0. *)
Definition line_log : LogisticRegressor R := {| log_parameters := Some [0; 1] |}.
Lemma line_log_at x : log_predict line_log (query [x]) = Ok [1 / (1 + exp (- x))].
Proof. unfold log_predict, line_log, query, rmat_vec, mat_vec, with_ones. cbn. unfold sigmoid, dot, vsum. cbn. do 4 f_equal. f_equal. ring. Qed.
(** Two classes with means 0 and 4 and variance 1. *)
Definition line_nb : NaiveBayes R (Gauss R) :=
  {| nb_distr := Some {| g_theta := Mat [[0]; [4]] 1; g_sigma := Mat [[1]; [1]] 1 |}; nb_cluster_count := Some 2%nat; nb_class_prior := Some [1 / 2; 1 / 2]; nb_class_counts := [2; 2]%nat |}.
Lemma line_nb_at x : 2 < x -> nb_predict Gaussian line_nb (query [x]) = Ok (Mat [[0; 1]] 2).
Proof.
  intros H. unfold nb_predict, get_log_probs, line_nb, query. cbn [nb_distr nb_class_prior d_joint Gaussian nb_cluster_count]. unfold gauss_joint. cbn -[gauss_score argmax one_hot_row]. unfold get_classes. cbn -[gauss_score one_hot_row nltb].
  assert (Q : nltb (gauss_score (1 / 2) [0] [1] [x]) (gauss_score (1 / 2) [4] [1] [x]) = true).
  { apply nltb_R. unfold gauss_score, vsum. cbn. unfold half. cbn. nra. }
  rewrite Q. reflexivity.
Qed.
