(** * Specification: overwriting one row *)
From Coq Require Import List.
From Verif Require Import Num Linalg.

(** [m'] is [m] with row [i] replaced by [r]. *)
Definition overwrites {F} (m : matrix F) (i : nat) (r : list F) (m' : matrix F) : Prop :=
  mcols m' = mcols m /\ nrows m' = nrows m /\ nth_error (mrows m') i = Some r /\
  forall j, j <> i -> nth_error (mrows m') j = nth_error (mrows m) j.
