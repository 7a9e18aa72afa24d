(** * What activation functions and regularisers must satisfy *)
From Coq Require Import Reals List.
From Verif Require Import Base Linalg Spec_Calc.
Local Open Scope R_scope.

Definition increasing_on_R (f : R -> R) : Prop := forall x y, x < y -> f x < f y.
(** The square of the Frobenius norm. *)
Definition sq_norm (m : matrix R) : R := sumR (nrows m) (fun i => sumR (mcols m) (fun j => entry m i j ^ 2)).
