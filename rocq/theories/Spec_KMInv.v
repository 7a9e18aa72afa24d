(** * k-means seen after a motion of the space *)
From Coq Require Import List Arith Bool Reals.
From Verif Require Import Base Num NumX Linalg Model_KMeans Spec_Calc.
Import ListNotations.

(** [T] takes points with [n] coordinates to points with [n'] coordinates without changing any distance:
    a fixed shift after a linear map with orthonormal columns. Translations, rotations, reflections, other
    orders of the coordinates and added constant coordinates are of this kind. *)
Definition motion (n n' : nat) (T : list R -> list R) : Prop :=
  exists (A : nat -> nat -> R) (b : nat -> R),
    (forall x, length x = n -> length (T x) = n' /\
       forall j, j < n' -> nth j (T x) 0%R = (b j + sumR n (fun k => A j k * nth k x 0))%R) /\
    (forall k l, k < n -> l < n -> sumR n' (fun j => A j k * A j l)%R = if k =? l then 1%R else 0%R).

(** What a user sees: train from the initialiser's answer [init], then ask for the clusters of [queries]. *)
Definition clusters {F} {N : Num F} (tol : F) (m : KMeans F) (init : res (matrix F)) (data queries : matrix F) : res (list nat) :=
  match km_train tol init m data with
  | (m', Ok _) => km_predict m' queries
  | (_, Err e) => Err e
  | (_, Panic) => Panic
  end.
(** The stored centroids after training. *)
Definition centres {F} {N : Num F} (tol : F) (m : KMeans F) (init : res (matrix F)) (data : matrix F) : option (matrix F) :=
  km_centroids (fst (km_train tol init m data)).
(** Row [c'] is row [c] moved; a centroid that lost all its rows is NaN in both. *)
Definition moved_row (n n' : nat) (T : list R -> list R) (c c' : list X) : Prop :=
  (exists v, length v = n /\ c = map Fin v /\ c' = map Fin (T v)) \/ (c = repeat NaN n /\ c' = repeat NaN n').
(** Apply [f] to the value of a result. *)
Definition rmap1 {A B} (f : A -> B) (r : res A) : res B := match r with Ok a => Ok (f a) | Err e => Err e | Panic => Panic end.
