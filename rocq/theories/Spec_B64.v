(** * Reading binary64 results as real numbers *)
From Coq Require Import List Reals ZArith.
From Flocq Require Import Core BinarySingleNaN.
From Verif Require Import NumF Linalg Spec_KNN.
Local Open Scope R_scope.

(** The binary64 number nearest to [v], ties to even (Flocq's rounding to 53 bits, exponents down to [-1074]). *)
Definition nearest (v : R) : R := round radix2 (FLT_exp (-1074) 53) ZnearestE v.
(** The unit roundoff, and half the smallest positive number. *)
Definition u64 : R := bpow radix2 (-53).
Definition h64 : R := bpow radix2 (-1075).
(** [x] is finite and stands for the real [v]. *)
Definition is_real (x : B64) (v : R) : Prop := is_finite x = true /\ B2R x = v.
(** Counts up to this one are exact in binary64. *)
Definition exact_count (n : nat) : Prop := (Z.of_nat n <= 2 ^ 53)%Z.
(** A quotient of counts: NaN for 0/0, otherwise the rounded fraction, in the unit interval and exact at both ends. *)
Definition rounded_ratio (v : B64) (a b : nat) : Prop :=
  (b = 0%nat -> is_nan v = true) /\
  (b <> 0%nat -> is_real v (nearest (INR a / INR b)) /\ 0 <= B2R v <= 1 /\ (B2R v = 1 <-> a = b) /\ (B2R v = 0 <-> a = 0%nat)).
(** What is asked of [f64::exp] on non-positive arguments (minus infinity included): a number between 0 and 1, and 1 at zero. *)
Definition good_exp (e : B64 -> B64) : Prop :=
  (forall x, Bleb x (B754_zero false) = true -> is_finite (e x) = true /\ 0 <= B2R (e x) <= 1) /\
  (forall x, is_real x 0 -> e x = b64_of_Z 1).
(** Finite numbers of moderate size, in moderately many dimensions: no distance overflows. *)
Definition moderate (l : list B64) : Prop := forall x, In x l -> is_finite x = true /\ Rabs (B2R x) <= bpow radix2 500.
Definition moderate_dim (n : nat) : Prop := (Z.of_nat n <= 2 ^ 20)%Z.
(** The real vector and matrix that binary64 entries stand for. *)
Definition real_vec (v : list B64) : list R := map B2R v.
Definition real_mat (m : matrix B64) : matrix R := Mat (map real_vec (mrows m)) (mcols m).
(** Finite entries only. *)
Definition finite_vec (x : list B64) : Prop := Forall (fun v => is_finite v = true) x.
Definition finite_mat (m : matrix B64) : Prop := Forall finite_vec (mrows m).
(** The straight-line distance of the points that two binary64 vectors stand for. *)
Definition true_dist (n : nat) (a b : list B64) : R := euclid n (real_vec a) (real_vec b).
(** [v] is the distance [d] up to a relative error below [2^-31] and a tiny absolute one. *)
Definition close_to (v d : R) : Prop := Rabs (v - d) <= bpow radix2 (-31) * d + bpow radix2 (-526).
(** The exact scalar product, and that of the absolute values. *)
Definition real_dot (x y : list R) : R := fold_right Rplus 0 (map2 Rmult x y).
Definition abs_dot (x y : list R) : R := fold_right Rplus 0 (map2 (fun a b => Rabs (a * b)) x y).
