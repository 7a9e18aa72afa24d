(** * C160: costs are least at the targets and bound the errors ([src/learning/toolkit/cost_fn.rs], [src/analysis/score.rs]) *)
From Coq Require Import List Arith Bool Reals.
From Verif Require Import Base Num NumFn Linalg Spec_Calc Spec_Cost Model_Cost Model_Score Model_Toolkit Model_Regression Spec_Errors Proof_Errors.
Import ListNotations.
Local Open Scope R_scope.

(** C160: the squared-error cost is zero exactly when outputs and targets agree, and positive otherwise. *)
Theorem C160_mse_least : forall o t : matrix R, mwf o -> mwf t -> same_shape o t = true -> (0 < nrows o)%nat ->
  exists c, mse_cost o t = Ok c /\ 0 <= c /\ (c = 0 <-> o = t).
Proof. exact mse_least. Qed.
Print Assumptions C160_mse_least.
(** C160: the cross-entropy cost is least exactly when outputs and targets agree. *)
Theorem C160_cross_entropy_least : forall o t : matrix R, mwf o -> mwf t -> same_shape o t = true -> (0 < nrows o)%nat -> entries_within o -> entries_unit t ->
  exists c, ce_cost o t = Ok c /\ cross_entropy t t <= c /\ (c = cross_entropy t t <-> o = t).
Proof. exact ce_least. Qed.
Print Assumptions C160_cross_entropy_least.
(** C160: with targets 0 and 1, the costs bound the number of outputs on the wrong side of one half. *)
Theorem C160_cross_entropy_errors : forall o t : matrix R, mwf o -> mwf t -> same_shape o t = true -> (0 < nrows o)%nat -> entries_within o -> binary t ->
  exists c, ce_cost o t = Ok c /\ wrong_entries o t <= INR (nrows o) * c / ln 2.
Proof. exact ce_errors. Qed.
Print Assumptions C160_cross_entropy_errors.
Theorem C160_mse_errors : forall o t : matrix R, mwf o -> mwf t -> same_shape o t = true -> (0 < nrows o)%nat -> binary t ->
  exists c, mse_cost o t = Ok c /\ wrong_entries o t <= 8 * INR (nrows o) * c.
Proof. exact mse_errors. Qed.
Print Assumptions C160_mse_errors.
Example C160_case : let o := Mat [[3/4]; [1/4]; [5/8]] 1 in let t := Mat [[1]; [0]; [0]] 1 in
  mwf o /\ mwf t /\ same_shape o t = true /\ (0 < nrows o)%nat /\ entries_within o /\ entries_unit t /\ binary t /\ wrong_entries o t = 1.
Proof. exact errors_case. Qed.

(** C160: the accuracy of the rounded predictions of a logistic regression is at least one minus its training cost over ln 2. *)
Theorem C160_logistic_accuracy : forall (inputs : matrix R) (targets w : list R) cost grad,
  (0 < length targets)%nat -> (forall y, In y targets -> y = 0 \/ y = 1) ->
  log_compute_grad (with_ones inputs) targets w = Ok (cost, grad) ->
  exists out a, log_predict {| log_parameters := Some w |} inputs = Ok out /\ accuracy (F := R) neqb (map rounded out) targets = Ok a /\
    1 - a <= cost / ln 2.
Proof. exact logistic_accuracy. Qed.
Print Assumptions C160_logistic_accuracy.
Example C160_logistic_case : (0 < length [1; 0])%nat /\ (forall y, In y [1; 0] -> y = 0 \/ y = 1) /\
  exists cost grad, log_compute_grad (with_ones (Mat [[2]; [-2]] 1)) [1; 0] [0; 1] = Ok (cost, grad).
Proof. exact logistic_accuracy_case. Qed.
