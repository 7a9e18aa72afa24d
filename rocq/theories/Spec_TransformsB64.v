(** * Specification of the data transforms in binary64 *)
From Coq Require Import List Arith Reals ZArith.
From Flocq Require Import Core BinarySingleNaN.
From Verif Require Import NumF Linalg Spec_Calc Spec_B64 Spec_Transforms.
Local Open Scope R_scope.

(** The entry of a binary64 matrix. *)
Definition cell (m : matrix B64) (i j : nat) : B64 := List.nth j (List.nth i (mrows m) nil) (B754_zero false).
(** The exact result of scaling [x] from [lo, hi] to [a, b]. *)
Definition stretch (a b lo hi x : R) : R := a + (x - lo) * ((b - a) / (hi - lo)).
(** What rounding may add: a few units in the last place of the target range and of the data read in target units. *)
Definition stretch_slack (a b lo hi : R) : R :=
  8 * u64 * (Rabs a + Rabs b + Rmax (Rabs lo) (Rabs hi) * ((b - a) / (hi - lo))) + 4 * (Rmax (Rabs lo) (Rabs hi) + 1) * h64.
(** Finite numbers up to [2^1000], in every column of which the scaling factor stays far below the overflow threshold. *)
Definition scalable (a b : R) (m : matrix B64) : Prop :=
  Rabs a <= bpow radix2 900 /\ Rabs b <= bpow radix2 900 /\
  (forall i j, (i < nrows m)%nat -> (j < mcols m)%nat -> is_finite (cell m i j) = true /\ Rabs (B2R (cell m i j)) <= bpow radix2 1000) /\
  forall j lo hi, (j < mcols m)%nat -> is_col_min (real_mat m) j lo -> is_col_max (real_mat m) j hi ->
    (1 + Rmax (Rabs lo) (Rabs hi)) * ((b - a) / (hi - lo)) <= bpow radix2 1000.
(** The scaling can be undone without overflow or underflow. *)
Definition recoverable (a b : R) (m : matrix B64) : Prop :=
  forall j lo hi, (j < mcols m)%nat -> is_col_min (real_mat m) j lo -> is_col_max (real_mat m) j hi ->
    bpow radix2 (-1000) <= (b - a) / (hi - lo) /\ (Rabs a + Rabs b) / ((b - a) / (hi - lo)) <= bpow radix2 1000.
Definition back_slack (a b lo hi : R) : R :=
  8 * u64 * (Rmax (Rabs lo) (Rabs hi) + (Rabs a + Rabs b) / ((b - a) / (hi - lo))) + 4 * (h64 / ((b - a) / (hi - lo))) + h64.
(** A row whose length neither overflows nor underflows when it is computed from the squares. *)
Definition measurable (r : list B64) : Prop := moderate r /\ moderate_dim (length r) /\ bpow radix2 (-450) <= row_len (real_vec r).
