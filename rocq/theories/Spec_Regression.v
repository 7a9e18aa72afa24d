(** Specification for linear and logistic regression. *)
From Coq Require Import List Arith Reals.
From Verif Require Import Base Num Linalg.
Import ListNotations.
Local Open Scope R_scope.

(** The affine function with intercept [p_0] and coefficients [p_1 ...]. *)
Definition affine (p x : list R) : R := nth 0 p 0 + sumR (length x) (fun k => nth (S k) p 0 * nth k x 0).
(** Sum of squared residuals. *)
Definition rss (X : matrix R) (y p : list R) : R :=
  sumR (nrows X) (fun i => (nth i y 0 - affine p (nth i (mrows X) [])) ^ 2).
(** What is assumed of a linear solver: an answer is an answer. *)
Definition solver_sound (solve : matrix R -> list R -> res (list R)) : Prop :=
  forall A b x, solve A b = Ok x -> length x = mcols A /\ mat_vec A x = b.
(** The cost part of a cost-and-gradient function. *)
Definition cost_of {A B} (r : res (A * B)) : res A := match r with Ok (a, _) => Ok a | Err k => Err k | Panic => Panic end.

(** Mean cross-entropy of the logistic model [p]. *)
Definition log_loss (X : matrix R) (y p : list R) : R :=
  sumR (nrows X) (fun i => let o := / (1 + exp (- affine p (nth i (mrows X) []))) in
                           - (nth i y 0 * ln o + (1 - nth i y 0) * ln (1 - o))) / INR (nrows X).
(** Squared Euclidean norm. *)
Definition sqnorm (x : list R) : R := sumR (length x) (fun k => nth k x 0 ^ 2).
