(** * C190, C191: exchanging the two classes ([src/learning/logistic_reg.rs], [src/learning/glm.rs], [src/learning/svm.rs]) *)
From Coq Require Import List Arith Lia Bool Reals Lra.
From Verif Require Import Base Num NumX NumFn Linalg Model_Optim Model_CG Model_Regression Spec_Regression Spec_Overlap Model_GLM Spec_GLM Proof_GLMEx Spec_Swap Proof_Swap Proof_SwapEx
  Model_SVM Proof_SVMEx Proof_SwapSVM.
Import ListNotations.
Local Open Scope R_scope.

(** C190 fails for the Bernoulli family: on data with as many rows of either class at every feature value, training answers
    more than one half for class 1, whichever of the two classes is called 1. *)
Theorem C190_refuted_glm : exists m m' a b, glm_train inverse2 Bernoulli glm_new X0011 balanced = (m, Ok tt) /\
  glm_train inverse2 Bernoulli glm_new X0011 (exchanged balanced) = (m', Ok tt) /\
  glm_predict Bernoulli m (Mat [[0]] 1) = Ok [a] /\ glm_predict Bernoulli m' (Mat [[0]] 1) = Ok [b] /\ 1 / 2 < a /\ 1 / 2 < b.
Proof. exact glm_swap_refuted. Qed.
Print Assumptions C190_refuted_glm.
(** C190 fails for logistic regression: the start at one half favours class 1. *)
Theorem C190_refuted_logistic : exists gd m m' a b, gd_new (3 / 10) 1 = Ok gd /\ log_train (gd_optimize gd) log_new (Mat [[0]] 1) [1] = (m, Ok tt) /\
  log_train (gd_optimize gd) log_new (Mat [[0]] 1) (exchanged [1]) = (m', Ok tt) /\
  log_predict m (Mat [[0]] 1) = Ok [a] /\ log_predict m' (Mat [[0]] 1) = Ok [b] /\ b <> 1 - a.
Proof. exact log_swap_refuted. Qed.
Print Assumptions C190_refuted_logistic.
(** C190 fails for the support vector machine with the linear kernel: whatever rows are drawn, the query is answered with class 1 under both
    namings of the classes. *)
Theorem C190_refuted_svm : forall iters (self1 self2 : SVM X), (0 < iters <= 8)%nat ->
  outcome (svm_train klin (svm_cfg iters) skew (map Fin [1; -1])) (Some self1) ->
  outcome (svm_train klin (svm_cfg iters) skew (map Fin [-1; 1])) (Some self2) ->
  svm_predict klin self1 query = Ok [Fin 1] /\ svm_predict klin self2 query = Ok [Fin 1].
Proof. exact svm_swap_refuted. Qed.
Print Assumptions C190_refuted_svm.
Example C190_svm_ex : (forall iters y, length y = 2%nat -> exists self', outcome (svm_train klin (svm_cfg iters) skew y) (Some self')) /\
  forall a b c d, klin [Fin a; Fin b] [Fin c; Fin d] = Model_Kernel.k_linear (Fin 0) [Fin a; Fin b] [Fin c; Fin d].
Proof. exact (conj skew_runs klin_linear). Qed.
Example C190_ex : inverse_sound inverse2 /\ mwf X0011 /\ length balanced = nrows X0011 /\ exchanged balanced <> balanced.
Proof. split; [exact inverse2_sound|]. split; [repeat constructor|]. split; [reflexivity|]. unfold exchanged, balanced. cbn. intros H. injection H. intros. lra. Qed.

(** C191: the cross-entropy of the opposite parameters on the exchanged targets is the same. *)
Theorem C191_loss : forall X y p, mwf X -> length y = nrows X -> length p = S (mcols X) -> log_loss X (exchanged y) (opposite p) = log_loss X y p.
Proof. exact loss_swap. Qed.
Print Assumptions C191_loss.
(** So the best fits are opposite. *)
Theorem C191_best_fit : forall X y p, mwf X -> length y = nrows X -> (best_fit X (exchanged y) (opposite p) <-> best_fit X y p).
Proof. exact best_swap. Qed.
Print Assumptions C191_best_fit.
(** Gradient descent and conjugate gradients from opposite starts stay opposite. *)
Theorem C191_descent : forall X y, mwf X -> length y = nrows X ->
  (forall self start, length start = S (mcols X) -> exists w, gd_optimize self (log_compute_grad (with_ones X) y) start = Ok w /\
     gd_optimize self (log_compute_grad (with_ones X) (exchanged y)) (opposite start) = Ok (opposite w)) /\
  (forall self start, length start = S (mcols X) -> cg_optimize self (log_compute_grad (with_ones X) (exchanged y)) (opposite start) =
     (let? w := cg_optimize self (log_compute_grad (with_ones X) y) start in Ok (opposite w))).
Proof. exact descent_swap. Qed.
Print Assumptions C191_descent.
(** Opposite parameters answer with the probabilities of the other class. *)
Theorem C191_predict : forall (m m' : LogisticRegressor R) p Z, log_parameters m = Some p -> log_parameters m' = Some (opposite p) ->
  log_predict m' Z = (let? out := log_predict m Z in Ok (exchanged out)).
Proof. exact predict_swap. Qed.
Print Assumptions C191_predict.
Example C191_ex : mwf X0011 /\ length balanced = nrows X0011 /\ length [1; 2] = S (mcols X0011) /\ opposite [1; 2] <> [1; 2].
Proof. split; [repeat constructor|]. split; [reflexivity|]. split; [reflexivity|]. unfold opposite. cbn. intros H. injection H. intros. lra. Qed.
