(** * C174: gradient descent on least squares, direction by direction *)
From Coq Require Import List Arith Reals Lra Lia.
From Verif Require Import Base Num Linalg Model_Optim Model_Regression Spec_Regression Spec_Modes Proof_Modes Proof_ModesEx.
Import ListNotations.
Local Open Scope R_scope.

(** After [j] steps the error in a direction of curvature lambda is [(1 - alpha lambda)^j] times what it was, and the
    loop ends only at its limit, at once when the start is nearly perfect, or when a step hardly changed the cost. *)
Theorem C174_descent : forall (gd : GradientDesc R) X y start, mwf X -> (0 < nrows X)%nat -> length y = nrows X -> length start = S (mcols X) ->
  exists w j, gd_optimize gd (lr_compute_grad (with_ones X) y) start = Ok w /\ length w = S (mcols X) /\ (j <= gd_iters gd)%nat /\
    shrunk X y (gd_alpha gd) j start w /\
    (j = gd_iters gd \/ (j = 0%nat /\ rss X y w < 2 * INR (nrows X) * / 10 ^ 20) \/
     exists w' j', j = S j' /\ shrunk X y (gd_alpha gd) j' start w' /\ Rabs (rss X y w' - rss X y w) < 2 * INR (nrows X) * / 10 ^ 20).
Proof. exact gd_modes. Qed.
Print Assumptions C174_descent.
Example C174_descent_case : mwf X_steep /\ best_fit X_steep y_steep [0; 1] /\ mode X_steep [0; 1] 16 /\ offset X_steep [0; 1] [0; 0] [0; 1] = -1.
Proof. split; [exact steep_wf|]. split; [exact steep_fit|]. split; [exact steep_slope|]. unfold offset, inner_prod. cbn. lra. Qed.
(** Training with the default settings has covered the share [1 - (1 - 3/10 lambda)^j] of the way to the best fit. *)
Theorem C174_train : forall (self : LinRegressor R) X y, mwf X -> (0 < nrows X)%nat -> length y = nrows X ->
  exists w j, lr_train_with_optimization self X y = ({| lr_parameters := Some w |}, Ok tt) /\ length w = S (mcols X) /\ (j <= 100)%nat /\
    (forall q v lambda, best_fit X y q -> mode X v lambda ->
      inner_prod (S (mcols X)) v w = (1 - (1 - 3 / 10 * lambda) ^ j) * inner_prod (S (mcols X)) v q) /\
    (j = 100%nat \/ (j = 0%nat /\ rss X y w < 2 * INR (nrows X) * / 10 ^ 20) \/
     exists w' j', j = S j' /\ shrunk X y (3 / 10) j' (repeat 0 (S (mcols X))) w' /\ Rabs (rss X y w' - rss X y w) < 2 * INR (nrows X) * / 10 ^ 20).
Proof. exact train_modes. Qed.
Print Assumptions C174_train.
Example C174_train_case : length y_steep = nrows X_steep /\ best_fit X_steep y_steep [0; 1] /\ mode X_steep [0; 1] 16 /\ mode X_steep [1; 0] 1 /\ 1 - 3 / 10 * 16 = - (19 / 5).
Proof. split; [reflexivity|]. split; [exact steep_fit|]. split; [exact steep_slope|]. split; [exact steep_intercept|lra]. Qed.
