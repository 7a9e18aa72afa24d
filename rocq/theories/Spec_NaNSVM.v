(** Specification for NaN in the data of a support vector machine. *)
From Coq Require Import List Arith.
From Verif Require Import Base Num NumF NumFn Linalg Spec_NaN.
Import ListNotations.

(** On points with [dim] entries the kernel value is NaN when an entry is. *)
Definition passes_nan (k : list B64 -> list B64 -> B64) (dim : nat) : Prop :=
  forall x y, length x = dim -> length y = dim -> has_nan x \/ has_nan y -> nnan (k x y) = true.
(** [f64::exp], [f64::tanh] of NaN are NaN, and so is [f64::powf] of NaN with an exponent that is not zero. *)
Definition libm_kernel_nan {NF : NumFn B64} : Prop :=
  forall x : B64, nnan x = true -> nnan (nexp x) = true /\ nnan (ntanh x) = true /\ forall y : B64, neqb y nzero = false -> nnan (npowf x y) = true.
(** [out] has one entry for each row of [P]; those of the rows with NaN are NaN. *)
Definition nan_rows (P : matrix B64) (out : list B64) : Prop :=
  length out = nrows P /\ forall i, i < nrows P -> has_nan (nth i (mrows P) []) -> nnan (nth i out nzero) = true.
(** The same for answers that are rows. *)
Definition nan_rows_mat (P out : matrix B64) : Prop :=
  nrows out = nrows P /\ forall i, i < nrows P -> has_nan (nth i (mrows P) []) -> Forall (fun x => nnan x = true) (nth i (mrows out) []).
