(** Specification for kernels. *)
From Coq Require Import List Arith Reals.
From Verif Require Import Base Num Linalg.
Import ListNotations.
Local Open Scope R_scope.

Definition symmetric {F} (k : list F -> list F -> res F) : Prop := forall x y, k x y = k y x.
(** For any finitely many points of dimension [dim] the Gram matrix exists and is positive
    semidefinite. *)
Definition psd_kernel (dim : nat) (k : list R -> list R -> res R) : Prop :=
  forall n (x : nat -> list R), (forall i, (i < n)%nat -> length (x i) = dim) ->
  exists K : nat -> nat -> R, (forall i j, (i < n)%nat -> (j < n)%nat -> k (x i) (x j) = Ok (K i j)) /\
    forall c : nat -> R, 0 <= sumR n (fun i => sumR n (fun j => c i * c j * K i j)).
(** Squared Euclidean distance. *)
Definition sqdist (x y : list R) : R := sumR (length x) (fun i => (nth i x 0 - nth i y 0) ^ 2).
