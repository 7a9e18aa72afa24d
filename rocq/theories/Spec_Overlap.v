(** * When a best logistic fit exists *)
From Coq Require Import List Arith Reals.
From Verif Require Import Base Num Linalg Spec_Regression.
Import ListNotations.
Local Open Scope R_scope.

(** Every target is 0 or 1. *)
Definition labels (y : list R) : Prop := forall i, (i < length y)%nat -> nth i y 0 = 0 \/ nth i y 0 = 1.

(** An affine function that is nowhere on the wrong side of the targets vanishes on all rows: no hyperplane separates the two
    classes, not even one that passes through rows of both. *)
Definition overlap (X : matrix R) (y : list R) : Prop :=
  forall v, length v = S (mcols X) ->
    (forall i, (i < nrows X)%nat -> (nth i y 0 = 1 -> 0 <= affine v (nth i (mrows X) [])) /\ (nth i y 0 = 0 -> affine v (nth i (mrows X) []) <= 0)) ->
    forall i, (i < nrows X)%nat -> affine v (nth i (mrows X) []) = 0.

(** No parameters have a smaller mean cross-entropy than [p]. *)
Definition best_fit (X : matrix R) (y p : list R) : Prop :=
  length p = S (mcols X) /\ forall q, length q = S (mcols X) -> log_loss X y p <= log_loss X y q.
