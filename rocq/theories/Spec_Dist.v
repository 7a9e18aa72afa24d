(** Specification for the distributions: the normal density and its integral. *)
From Coq Require Import Reals.
From Coquelicot Require Import Coquelicot.
Local Open Scope R_scope.

Definition normal_density (m v t : R) : R := exp (- (t - m) ^ 2 / (2 * v)) / sqrt (2 * PI * v).
(** The distribution function of the normal distribution: by symmetry half of the mass lies below the mean. *)
Definition normal_cdf (m v x : R) : R := / 2 + RInt (normal_density m v) m x.
