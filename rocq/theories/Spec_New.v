(** * Specification of the parameters a constructor accepts *)
From Coq Require Import Reals Bool.
From Flocq Require Import Core BinarySingleNaN.
From Verif Require Import NumF.
Local Open Scope R_scope.

(** Binary64 numbers above zero, infinity included, NaN excluded. *)
Definition positive64 (x : B64) : Prop := is_finite x = true /\ 0 < B2R x \/ x = B754_infinity false.
(** At least zero (either zero), infinity included, NaN excluded. *)
Definition nonneg64 (x : B64) : Prop := is_finite x = true /\ 0 <= B2R x \/ x = B754_infinity false.
(** Strictly between zero and one. *)
Definition fraction64 (x : B64) : Prop := is_finite x = true /\ 0 < B2R x < 1.
(** Below zero, minus infinity included. *)
Definition negative64 (x : B64) : Prop := is_finite x = true /\ B2R x < 0 \/ x = B754_infinity true.
