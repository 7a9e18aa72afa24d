(** Specification for Gaussian processes. *)
From Coq Require Import List Arith Reals.
From Verif Require Import Base Num Linalg.
Import ListNotations.
Local Open Scope R_scope.

(** What is assumed of the decomposition and of the triangular solvers: an answer is an answer,
    and for the solvers the only one.  Nothing is assumed of a solver on matrices that do not have its shape. *)
Definition lower_triangular (L : matrix R) : Prop := forall i j, (i < j)%nat -> (j < mcols L)%nat -> nth j (nth i (mrows L) []) 0 = 0.
Definition upper_triangular (U : matrix R) : Prop := forall i j, (j < i)%nat -> (i < nrows U)%nat -> nth j (nth i (mrows U) []) 0 = 0.
Definition cholesky_sound (cholesky : matrix R -> option (matrix R)) : Prop :=
  forall A L, mwf A -> nrows A = mcols A -> cholesky A = Some L ->
    mwf L /\ nrows L = nrows A /\ mcols L = nrows A /\ lower_triangular L /\
    forall v, length v = nrows A -> mat_vec L (mat_vec (transpose L) v) = mat_vec A v.
Definition triangular_sound (shape : matrix R -> Prop) (solve : matrix R -> list R -> res (list R)) : Prop :=
  forall L b x, mwf L -> shape L -> solve L b = Ok x ->
    length x = mcols L /\ mat_vec L x = b /\ forall x', length x' = mcols L -> mat_vec L x' = b -> x' = x.
(** The kernel is defined on points of dimension [dim], with values [k]. *)
Definition kernel_is (dim : nat) (ker : list R -> list R -> res R) (k : list R -> list R -> R) : Prop :=
  forall x y, length x = dim -> length y = dim -> ker x y = Ok (k x y).
(** Row [i] of the data. *)
Definition pt (X : matrix R) (i : nat) : list R := nth i (mrows X) [].
(** [(K + noise I) a = d], where [K] is the Gram matrix of the rows of [X]. *)
Definition solves (k : list R -> list R -> R) (noise : R) (X : matrix R) (a : list R) (d : nat -> R) : Prop :=
  length a = nrows X /\ forall i, (i < nrows X)%nat ->
    sumR (nrows X) (fun j => k (pt X i) (pt X j) * nth j a 0) + noise * nth i a 0 = d i.
(** [k(x, X) a] *)
Definition against (k : list R -> list R -> R) (X : matrix R) (a : list R) (x : list R) : R :=
  sumR (nrows X) (fun j => k x (pt X j) * nth j a 0).
