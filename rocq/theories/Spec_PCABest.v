(** Specification: how well a few directions represent the data. *)
From Coq Require Import List Arith Reals.
From Verif Require Import Base Num Linalg Spec_Calc Model_PCA Spec_PCA.
Import ListNotations.
Local Open Scope R_scope.

(** Squared distance of the rows of [X] from the points [mu + sum_j B i j * (column j of W)] of a [p]-dimensional flat. *)
Definition misfit (X : matrix R) (p : nat) (mu : nat -> R) (B W : nat -> nat -> R) : R :=
  sumR (nrows X) (fun i => sumR (mcols X) (fun k => (entry X i k - mu k - sumR p (fun j => B i j * W k j)) ^ 2)).
(** Squared distance between rows [i] of [X] and [i'] of [Y]. *)
Definition row_dist2 (X : matrix R) (i : nat) (Y : matrix R) (i' : nat) : R := sumR (mcols X) (fun k => (entry X i k - entry Y i' k) ^ 2).
(** Column [j] of [V] is direction [j] as stored in the trained model (the model keeps the transposed matrix after wide data). *)
Definition stored_directions (self : PCA R) (X : matrix R) (p : nat) (V : nat -> nat -> R) : Prop :=
  exists comp, pca_get_components self = Ok comp /\ forall k j, (k < mcols X)%nat -> (j < p)%nat ->
    (wide X -> V k j = entry comp j k) /\ (~ wide X -> V k j = entry comp k j).
