(** * C157: the best logistic fit *)
From Coq Require Import List Arith Lia Bool Reals Lra.
From Verif Require Import Base Num NumFn Linalg Model_Optim Model_Regression Spec_Regression Spec_GDRate Spec_Succeeds Spec_GLM Model_GLM Proof_GLMEx
  Spec_Datasets Spec_Overlap Proof_Overlap Proof_OverlapEx.
Import ListNotations.
Local Open Scope R_scope.

Theorem C157_best_fit_exists : forall X y, mwf X -> (0 < nrows X)%nat -> length y = nrows X -> labels y -> spans X ->
  ((exists p, best_fit X y p) <-> overlap X y) /\ (forall p q, best_fit X y p -> best_fit X y q -> p = q).
Proof. exact best_exists. Qed.
Print Assumptions C157_best_fit_exists.
Theorem C157_training_nears_best_fit : forall X y, mwf X -> (0 < nrows X)%nat -> length y = nrows X -> labels y -> spans X -> overlap X y -> 2 * INR (nrows X) <= 10 ^ 20 ->
  exists z k, best_fit X y z /\ 0 < k /\
    forall gd (self : LogisticRegressor R) L, (forall x, In x (mrows X) -> 1 + sqnorm x <= L) -> 0 < gd_alpha gd -> gd_alpha gd * L <= 4 -> (0 < gd_iters gd)%nat ->
    exists self' p, log_train (gd_optimize gd) self X y = (self', Ok tt) /\ log_parameters self' = Some p /\ length p = S (mcols X) /\
      let D := dist2 (repeat (1 / 2) (S (mcols X))) z in
      (k * dist2 p z <= D / (2 * gd_alpha gd * INR (gd_iters gd)) \/ k * dist2 p z <= sqrt (2 * / 10 ^ 20 / gd_alpha gd) * sqrt D).
Proof. exact training_nears. Qed.
Print Assumptions C157_training_nears_best_fit.
Example C157_ex : mwf zigzag /\ (0 < nrows zigzag)%nat /\ length [0; 1; 0; 1] = nrows zigzag /\ labels [0; 1; 0; 1] /\ spans zigzag /\ overlap zigzag [0; 1; 0; 1] /\
  2 * INR (nrows zigzag) <= 10 ^ 20.
Proof. exact zigzag_ok. Qed.

(** A Bernoulli GLM whose pass reproduces itself with means away from 0 and 1 has found the same parameters. *)
Theorem C157_glm : forall inverse X y mu z b, inverse_sound inverse -> mwf X -> (0 < nrows X)%nat -> length y = nrows X -> length mu = nrows X -> length z = nrows X -> labels y ->
  (forall i, (i < nrows X)%nat -> 1 / 10 ^ 5 <= nth i mu 0 * (1 - nth i mu 0)) ->
  glm_pass inverse Bernoulli (with_ones X) y mu z = Ok (b, mu, z) -> best_fit X y b /\ overlap X y.
Proof. exact glm_best. Qed.
Print Assumptions C157_glm.
Example C157_glm_ex : inverse_sound inverse2 /\ mwf X0011 /\
  glm_pass inverse2 Bernoulli (with_ones X0011) [0; 1; 0; 1] [1/2; 1/2; 1/2; 1/2] [-2; 2; -2; 2] = Ok ([0; 0], [1/2; 1/2; 1/2; 1/2], [-2; 2; -2; 2]) /\
  (forall i, (i < 4)%nat -> 1 / 10 ^ 5 <= nth i [1/2; 1/2; 1/2; 1/2] 0 * (1 - nth i [1/2; 1/2; 1/2; 1/2] 0)).
Proof. exact glm_best_ex. Qed.

(** Versicolor and Virginica overlap: exactly one logistic model fits them best. *)
Theorem C157_iris : exists p, best_fit iris_X12 iris_y12 p /\ forall q, best_fit iris_X12 iris_y12 q -> q = p.
Proof. exact iris12_best. Qed.
Print Assumptions C157_iris.
