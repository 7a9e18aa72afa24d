(** * Specification: segments that cross *)
From Coq Require Import List Reals.
From Verif Require Import Base Linalg Spec_Between.
Import ListNotations.
Local Open Scope R_scope.

(** The segment from [x] to [x'] meets the segment from [y] to [y']; for example the diagonals of a rectangle. *)
Definition crossing (x x' y y' : list R) : Prop := length x = length x' /\ length y = length y' /\
  exists t s, 0 <= t <= 1 /\ 0 <= s <= 1 /\ mix t x x' = mix s y y'.
(** One answer on the ends of a segment excludes another answer on both ends of a segment crossing it. *)
Definition never_crossed {A} (predict : matrix R -> res A) : Prop := forall x x' y y' c c', crossing x x' y y' ->
  predict (query x) = Ok c -> predict (query x') = Ok c -> predict (query y) = Ok c' -> predict (query y') = Ok c' -> c = c'.
(** Numeric answers above a threshold on both ends exclude answers not above it on both ends of a crossing segment. *)
Definition never_split (predict : matrix R -> res (list R)) : Prop := forall x x' y y' a a' b b' h, crossing x x' y y' ->
  predict (query x) = Ok [a] -> predict (query x') = Ok [a'] -> predict (query y) = Ok [b] -> predict (query y') = Ok [b'] ->
  ~ (h < a /\ h < a' /\ b <= h /\ b' <= h).
