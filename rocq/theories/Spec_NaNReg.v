(** Specification for NaN in the training data of the regression models. *)
From Coq Require Import List Arith.
From Verif Require Import Base Num NumF NumFn Linalg Spec_NaN.
Import ListNotations.

(** Some row or its target has a NaN. *)
Definition tainted (X : matrix B64) (y : list B64) : Prop :=
  exists i, i < nrows X /\ (has_nan (nth i (mrows X) []) \/ nnan (nth i y nzero) = true).
(** Every entry is NaN. *)
Definition all_nan (v : list B64) : Prop := Forall (fun x => nnan x = true) v.
(** [f64::exp] and [f64::ln] of NaN are NaN. *)
Definition libm_nan {NF : NumFn B64} : Prop := forall x : B64, nnan x = true -> nnan (nexp x) = true /\ nnan (nln x) = true.
