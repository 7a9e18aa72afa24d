(** * C152: logistic regression on separable data *)
From Coq Require Import List Arith Reals.
From Verif Require Import Base Num NumFn Linalg Model_Optim Model_Regression Spec_Regression Spec_Separable Proof_Separable.
Import ListNotations.
Local Open Scope R_scope.

Theorem C152_all_right : forall gd (self : LogisticRegressor R) X y q g L, mwf X -> (0 < nrows X)%nat -> length y = nrows X ->
  (forall x, In x (mrows X) -> 1 + sqnorm x <= L) -> 0 < gd_alpha gd -> gd_alpha gd * L <= 4 ->
  0 < g -> separates X y q g -> 2 * INR (nrows X) <= 10 ^ 20 ->
  2 * INR (nrows X) * reach X q g < gd_alpha gd * INR (gd_iters gd) -> 32 * INR (nrows X) ^ 2 * reach X q g <= 10 ^ 20 * gd_alpha gd ->
  exists self' out, log_train (gd_optimize gd) self X y = (self', Ok tt) /\ log_predict self' X = Ok out /\ all_right y out.
Proof. exact log_separable. Qed.
Print Assumptions C152_all_right.
Example C152_ex : let X := Mat [[1]; [-1]; [1 / 2]] 1 in let gd := {| gd_alpha := 2; gd_iters := 100 |} in
  mwf X /\ (0 < nrows X)%nat /\ length [1; 0; 1] = nrows X /\ (forall x, In x (mrows X) -> 1 + sqnorm x <= 2) /\ 0 < gd_alpha gd /\ gd_alpha gd * 2 <= 4 /\
  0 < 1 / 2 /\ separates X [1; 0; 1] [0; 1] (1 / 2) /\ 2 * INR (nrows X) <= 10 ^ 20 /\
  2 * INR (nrows X) * reach X [0; 1] (1 / 2) < gd_alpha gd * INR (gd_iters gd) /\
  32 * INR (nrows X) ^ 2 * reach X [0; 1] (1 / 2) <= 10 ^ 20 * gd_alpha gd.
Proof. exact separable_ex. Qed.

Theorem C152_no_best_fit : forall X y q g, (0 < nrows X)%nat -> 0 < g -> separates X y q g ->
  (forall eps, 0 < eps -> exists p, length p = S (mcols X) /\ log_loss X y p < eps) /\
  (forall p, exists p', length p' = S (mcols X) /\ log_loss X y p' < log_loss X y p).
Proof. exact log_no_best. Qed.
Print Assumptions C152_no_best_fit.
Example C152_no_best_fit_ex : let X := Mat [[1]; [-1]; [1 / 2]] 1 in
  (0 < nrows X)%nat /\ 0 < 1 / 2 /\ separates X [1; 0; 1] [0; 1] (1 / 2).
Proof. exact (conj (proj1 (proj2 separable_ex)) (conj (proj1 (proj2 (proj2 (proj2 (proj2 (proj2 (proj2 separable_ex))))))) (proj1 (proj2 (proj2 (proj2 (proj2 (proj2 (proj2 (proj2 separable_ex)))))))))). Qed.
