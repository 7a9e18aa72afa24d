(** Specification for principal component analysis. *)
From Coq Require Import List Arith Reals.
From Verif Require Import Base Num Linalg Spec_Calc Model_PCA.
Import ListNotations.
Local Open Scope R_scope.

(** Mean of column [j]. *)
Definition mean_of (X : matrix R) (j : nat) : R := sumR (nrows X) (fun i => entry X i j) / INR (nrows X).
(** What is subtracted from column [j] of the data. *)
Definition centre_of (center : bool) (X : matrix R) (j : nat) : R := if center then mean_of X j else 0.

(** The first [m] columns of [V] ([c] rows) are orthonormal. *)
Definition orthonormal (c m : nat) (V : nat -> nat -> R) : Prop :=
  forall a b, (a < m)%nat -> (b < m)%nat ->
    sumR c (fun k => V k a * V k b) = if (a =? b)%nat then 1 else 0.

(** [A = U diag(sigma) V^T] with orthonormal columns and decreasing singular values; [A] is r x c
    and there are [m] singular values. *)
Definition is_svd (r c m : nat) (A V : nat -> nat -> R) (sigma : nat -> R) : Prop :=
  exists U, orthonormal r m U /\ orthonormal c m V /\
    (forall j, (j < m)%nat -> 0 <= sigma j) /\ (forall i j, (i <= j < m)%nat -> sigma j <= sigma i) /\
    forall i j, (i < r)%nat -> (j < c)%nat -> A i j = sumR m (fun k => U i k * sigma k * V j k).

(** What is assumed of [Matrix::svd]: the answer has the documented shape and is a decomposition. *)
Definition svd_sound (svd : matrix R -> option (matrix R)) : Prop :=
  forall A V, mwf A -> svd A = Some V ->
    mwf V /\ nrows V = mcols A /\ mcols V = Nat.min (nrows A) (mcols A) /\
    exists sigma, is_svd (nrows A) (mcols A) (mcols V) (entry A) (entry V) sigma.
(** The shape alone, in any arithmetic. *)
Definition svd_shape {F} (svd : matrix F -> option (matrix F)) : Prop :=
  forall A V, mwf A -> svd A = Some V -> mwf V /\ nrows V = mcols A /\ mcols V = Nat.min (nrows A) (mcols A).

(** [out] is [X], minus the centre of the training data, times [V]. *)
Definition projection (center : bool) (T : matrix R) (V : nat -> nat -> R) (X out : matrix R) : Prop :=
  nrows out = nrows X /\ mwf out /\ forall i j, (i < nrows X)%nat -> (j < mcols out)%nat ->
    entry out i j = sumR (mcols T) (fun k => (entry X i k - centre_of center T k) * V k j).

(** Sum of squares of the (centred) rows of [X] in direction [u]. *)
Definition spread (center : bool) (X : matrix R) (u : nat -> R) : R :=
  sumR (nrows X) (fun i => let s := sumR (mcols X) (fun k => (entry X i k - centre_of center X k) * u k) in s * s).

(** Prepared training data: row [i], column [k]. *)
Definition prepared_entry (center : bool) (X : matrix R) (i k : nat) : R := entry X i k - centre_of center X k.
(** More columns than rows. *)
Definition wide {F} (X : matrix F) : Prop := (nrows X < mcols X)%nat.
(** Number of output columns asked for. *)
Definition wanted (n : option nat) (c : nat) : nat := match n with Some k => k | None => c end.
(** A history of training calls, returning [Ok] or [Err], from [start] to [self]; [Ts] lists the
    training sets of the successful ones. *)
Inductive trained_on {F} {N : Num F} (svd : matrix F -> option (matrix F)) (start : PCA F) : list (matrix F) -> PCA F -> Prop :=
| TO_start : trained_on svd start [] start
| TO_ok Ts self X self' : trained_on svd start Ts self -> mwf X -> pca_train svd self X = (self', Ok tt) -> trained_on svd start (Ts ++ [X]) self'
| TO_err Ts self X self' k : trained_on svd start Ts self -> mwf X -> pca_train svd self X = (self', Err k) -> trained_on svd start Ts self'.
(** Good cases: tall data on a model never trained on wide data, or wide data with all components. *)
Definition usable (self : PCA R) (X : matrix R) : Prop :=
  (~ wide X /\ pca_inv self = false) \/ (wide X /\ wanted (pca_n self) (mcols X) = mcols X).
