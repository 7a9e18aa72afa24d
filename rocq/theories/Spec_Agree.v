(** * Specification: further data below a data set *)
From Coq Require Import List Reals.
From Verif Require Import Num Linalg.

(** The rows of [Z] below the rows of [X]. *)
Definition stacked (X Z : matrix R) : matrix R := Mat (mrows X ++ mrows Z) (mcols X).
