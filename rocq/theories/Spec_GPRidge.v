(** Specification: functions built from a kernel, their norm, and penalised least squares. *)
From Coq Require Import List Arith Reals.
From Verif Require Import Base Num Linalg Spec_GP.
Import ListNotations.
Local Open Scope R_scope.

(** Coefficients and points. *)
Definition expansion := list (R * list R).
(** The function [x |-> sum of c * k(x, z)]. *)
Definition value (k : list R -> list R -> R) (f : expansion) (x : list R) : R := fold_right (fun cz s => fst cz * k x (snd cz) + s) 0 f.
(** Sum over all pairs of terms of [c * c' * k(z, z')]. *)
Definition norm2 (k : list R -> list R -> R) (f : expansion) : R := fold_right (fun cz s => fst cz * value k f (snd cz) + s) 0 f.
(** All points have dimension [dim]. *)
Definition points_in (dim : nat) (f : expansion) : Prop := Forall (fun cz => length (snd cz) = dim) f.
(** Squared residuals plus a multiple of the squared norm. *)
Definition penalised (k : list R -> list R -> R) (noise : R) (X : matrix R) (d : nat -> R) (f : expansion) : R :=
  sumR (nrows X) (fun i => (d i - value k f (pt X i)) ^ 2) + noise * norm2 k f.
