(** * Specification of the regression score and cost functions *)
From Coq Require Import List Arith Reals.
From Verif Require Import Base Linalg Spec_Calc.
Local Open Scope R_scope.

(** Sum over all entries of a matrix of given shape. *)
Definition sum_entries (n c : nat) (f : nat -> nat -> R) : R := sumR n (fun i => sumR c (fun j => f i j)).

Definition mean_squared_error (o t : matrix R) : R :=
  sum_entries (nrows o) (mcols o) (fun i j => (entry o i j - entry t i j) ^ 2) / INR (nrows o).

Definition cross_entropy (o t : matrix R) : R :=
  - sum_entries (nrows o) (mcols o)
      (fun i j => entry t i j * ln (entry o i j) + (1 - entry t i j) * ln (1 - entry o i j)) / INR (nrows o).
