(** * Specification: changes of units, order and origin in regression *)
From Coq Require Import List Arith Reals Permutation.
From Verif Require Import Base Num Linalg Spec_Regression.
Import ListNotations.
Local Open Scope R_scope.

(** [f] turns rows of width [d] into rows of width [d'] carrying the same affine functions: what is affine in one is affine in the other. *)
Definition same_affine (d d' : nat) (f : list R -> list R) : Prop :=
  (forall x, length x = d -> length (f x) = d') /\
  (forall p, length p = S d' -> exists q, length q = S d /\ forall x, length x = d -> affine p (f x) = affine q x) /\
  (forall q, length q = S d -> exists p, length p = S d' /\ forall x, length x = d -> affine p (f x) = affine q x).
(** Other units: feature [k] becomes [a_k * x_k + b_k]. *)
Definition new_units (ab : list (R * R)) (x : list R) : list R := map (fun k => fst (nth k ab (0, 0)) * nth k x 0 + snd (nth k ab (0, 0))) (seq 0 (length x)).
(** Another order of the features. *)
Definition new_order (pi : list nat) (x : list R) : list R := map (fun k => nth k x 0) pi.
(** The training rows determine the fit at [x]: affine functions that vanish on them vanish at [x].
    True of every training row, and of every [x] when the training rows have full rank. *)
Definition determined (X : matrix R) (x : list R) : Prop :=
  length x = mcols X /\ forall q, length q = S (mcols X) -> (forall r, In r (mrows X) -> affine q r = 0) -> affine q x = 0.
Definition map_rows (f : list R -> list R) (d' : nat) (X : matrix R) : matrix R := Mat (map f (mrows X)) d'.
(** The same data [k] times over. *)
Definition times {A} (k : nat) (l : list A) : list A := concat (repeat l k).
