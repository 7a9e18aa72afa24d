(** * Specification: repeated samples for Gaussian processes *)
From Coq Require Import List Reals.
From Verif Require Import Num Linalg Model_GP Spec_Equiv.
Import ListNotations.

(** The mean function works row by row. *)
Definition mean_is (mean : MeanFunc R) (f : list R -> R) : Prop := forall X, mean X = map f (mrows X).
(** Every row [q] times. *)
Definition copied (q : nat) (X : matrix R) : matrix R := Mat (times q (mrows X)) (mcols X).
