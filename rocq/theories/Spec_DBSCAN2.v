(** * Comparing two clusterings *)
From Coq Require Import List Arith Reals.
From Verif Require Import Num Linalg Spec_KNN.
Import ListNotations.

(** Rows labelled by [lab] are labelled by [lab'], and rows together in [lab] are together in [lab']. *)
Definition refines (lab lab' : list (option nat)) : Prop :=
  length lab = length lab' /\
  (forall i, nth i lab None <> None -> nth i lab' None <> None) /\
  (forall i j, nth i lab None <> None -> nth i lab None = nth j lab None -> nth i lab' None = nth j lab' None).

(** [T] multiplies all distances between the listed points by [s]. *)
Definition similarity (n n' : nat) (s : R) (T : list R -> list R) (pts : list (list R)) : Prop :=
  forall a b, In a pts -> In b pts -> euclid n' (T a) (T b) = (s * euclid n a b)%R.
Definition map_rows {F} (n' : nat) (T : list F -> list F) (m : matrix F) : matrix F := Mat (map T (mrows m)) n'.

(** The points 0, 1, ..., n-1 of the real line. *)
Definition line (n : nat) : matrix R := Mat (map (fun i => [INR i]) (seq 0 n)) 1.

(** A radius and the rounding of a distance near it. *)
From Flocq Require Import Core.
Definition tol_up (e : R) : R := ((1 + bpow radix2 (-31)) * e + bpow radix2 (-526))%R.
Definition tol_down (e : R) : R := ((1 - bpow radix2 (-31)) * e - bpow radix2 (-526))%R.

(** Moving, scaling (and reflecting), and reordering the coordinates of a point. *)
Definition moved (t a : list R) : list R := map2 Rplus a t.
Definition scaled (s : R) (a : list R) : list R := map (Rmult s) a.
Definition reordered (p : list nat) (a : list R) : list R := map (fun j => nth j a 0%R) p.
