(** * Specification: the same data in other units *)
From Coq Require Import List Arith Reals.
From Verif Require Import Base Linalg Spec_Calc.
Import ListNotations.
Local Open Scope R_scope.

(** Column [j] of [m'] is column [j] of [m] measured in another unit: [x] became [a j * x + b j]. *)
Definition rescaled (a b : nat -> R) (m m' : matrix R) : Prop :=
  mwf m /\ mwf m' /\ nrows m' = nrows m /\ mcols m' = mcols m /\
  forall i j, (i < nrows m)%nat -> (j < mcols m)%nat -> entry m' i j = a j * entry m i j + b j.

(** Row [i] of [m'] is row [i] of [m] multiplied by [c i]. *)
Definition rows_rescaled (c : nat -> R) (m m' : matrix R) : Prop :=
  nrows m' = nrows m /\ mcols m' = mcols m /\
  forall i, (i < nrows m)%nat -> nth i (mrows m') [] = map (Rmult (c i)) (nth i (mrows m) []).
