(** Specification for C179: points between two rows. *)
From Coq Require Import List Reals.
From Verif Require Import Base Linalg.
Import ListNotations.

Definition mix (t : R) (x y : list R) : list R := map2 (fun a b => (t * a + (1 - t) * b)%R) x y.
(** The query consisting of one row. *)
Definition query (x : list R) : matrix R := Mat [x] (length x).
(** The answer at a point between two others lies between their answers. *)
Definition in_between (predict : matrix R -> res (list R)) : Prop := forall x y a b t, length x = length y ->
  predict (query x) = Ok [a] -> predict (query y) = Ok [b] -> (0 <= t <= 1)%R -> exists c, predict (query (mix t x y)) = Ok [c] /\ (Rmin a b <= c <= Rmax a b)%R.
(** Two rows with the same answer have no other answer between them. *)
Definition convex_regions {A} (predict : matrix R -> res A) : Prop := forall x y c t, length x = length y ->
  predict (query x) = Ok c -> predict (query y) = Ok c -> (0 <= t <= 1)%R -> predict (query (mix t x y)) = Ok c.
(** The answer changes at a constant rate along every straight line. *)
Definition affine_answers (predict : matrix R -> res (list R)) : Prop := forall x y a b t, length x = length y ->
  predict (query x) = Ok [a] -> predict (query y) = Ok [b] -> predict (query (mix t x y)) = Ok [(t * a + (1 - t) * b)%R].
