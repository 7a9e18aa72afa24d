(** * Data that an affine function separates *)
From Coq Require Import List Arith Reals.
From Verif Require Import Base Num Linalg Spec_Regression.
Import ListNotations.
Local Open Scope R_scope.

(** All targets are 0 or 1, and the affine function [q] is at least [margin] on the rows with target 1 and at most
    [- margin] on those with target 0. *)
Definition separates (X : matrix R) (y q : list R) (margin : R) : Prop :=
  length q = S (mcols X) /\ forall i, (i < nrows X)%nat ->
    (nth i y 0 = 1 /\ margin <= affine q (nth i (mrows X) [])) \/ (nth i y 0 = 0 /\ affine q (nth i (mrows X) []) <= - margin).

(** Every row is on the right side of one half. *)
Definition all_right (y out : list R) : Prop :=
  length out = length y /\ forall i, (i < length y)%nat -> (nth i y 0 = 1 -> 1 / 2 < nth i out 0) /\ (nth i y 0 = 0 -> nth i out 0 < 1 / 2).

(** How far (squared) the starting point of training, all parameters one half, is from the separating function [q] scaled so
    that the margin becomes [ln (4 n)]. *)
Definition reach (X : matrix R) (q : list R) (margin : R) : R :=
  sumR (S (mcols X)) (fun k => (1 / 2 - ln (4 * INR (nrows X)) / margin * nth k q 0) ^ 2).
