(** * What is asked of the library functions [f64::exp] and [f64::ln] *)
From Coq Require Import Reals ZArith.
From Flocq Require Import Core BinarySingleNaN.
From Verif Require Import NumF Spec_B64.
Local Open Scope R_scope.

(** [f64::exp]: never negative, NaN only on NaN, never decreasing, 1 at zero. *)
Definition sound_exp (e : B64 -> B64) : Prop :=
  (forall x, is_nan x = false -> Bleb (B754_zero false) (e x) = true) /\
  (forall x y, Bleb x y = true -> Bleb (e x) (e y) = true) /\
  (forall x, is_real x 0 -> e x = b64_of_Z 1).
(** Relative error at most [u] where the result is finite; infinite results only on overflow. *)
Definition accurate_exp (u : R) (e : B64 -> B64) : Prop :=
  forall x, is_finite x = true ->
    (is_finite (e x) = true -> Rabs (B2R (e x) - exp (B2R x)) <= u * exp (B2R x) + bpow radix2 (-1074)) /\
    (is_finite (e x) = false -> e x = B754_infinity false /\ bpow radix2 1000 <= exp (B2R x)).
(** The logistic function. *)
Definition logistic (x : R) : R := 1 / (1 + exp (- x)).
(** A binary64 number of the interval [a, b]. *)
Definition within (a b : R) (v : B64) : Prop := is_finite v = true /\ a <= B2R v <= b.
