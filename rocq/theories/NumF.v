(** * IEEE 754 binary64 arithmetic (Flocq), round to nearest even: executable *)
From Coq Require Import Reals Bool ZArith.
From Flocq Require Import Core BinarySingleNaN.
From Verif Require Import Num.

(** The type [f64]: used for every number of /repo when rounding matters. *)
Definition B64 : Type := binary_float 53 1024.
(** 53 binary digits. *)
Definition prec64 : Prec_gt_0 53 := eq_refl.
(** Largest exponent 1024. *)
Definition emax64 : Prec_lt_emax 53 1024 := eq_refl.
Global Existing Instance prec64.
Global Existing Instance emax64.

(** The binary64 number nearest to an integer: [as f64] (e.g. score.rs lines 40, 45) and integral literals. *)
Definition b64_of_Z (z : Z) : B64 := binary_normalize 53 1024 prec64 emax64 mode_NE z 0 false.
(** The binary64 number nearest to [m * 2^e]. *)
Definition b64_bin (m e : Z) : B64 := binary_normalize 53 1024 prec64 emax64 mode_NE m e false.

(** [<] on [f64]: false when an operand is NaN. *)
Definition b64_ltb (x y : B64) : bool := Bltb x y.
(** [<=] on [f64]. *)
Definition b64_leb (x y : B64) : bool := Bleb x y.
(** [==] on [f64]: 0 and -0 are equal, NaN is not equal to itself. *)
Definition b64_eqb (x y : B64) : bool := Beqb x y.

(** [f64::MAX] (knn/mod.rs line 212): (2^53 - 1) 2^971. *)
Definition b64_max : B64 := b64_bin (2 ^ 53 - 1) 971.

(** The arithmetic of [f64], rounding to nearest even. All NaNs are one value (no payloads). *)
Global Instance NumB64 : Num B64 := {
  nzero := B754_zero false; nonev := b64_of_Z 1;
  nadd := Bplus mode_NE; nsub := Bminus mode_NE; nmul := Bmult mode_NE; ndiv := Bdiv mode_NE;
  nopp := Bopp; nabs := Babs; nsqrt := Bsqrt mode_NE;
  nltb := b64_ltb; nleb := b64_leb; neqb := b64_eqb;
  nfinite := is_finite; nnan := is_nan;
  nofnat := fun n => b64_of_Z (Z.of_nat n); nmaxv := b64_max
}.

(** Decimal literal [n / 10^d], correctly rounded only when [n] and [10^d] are exactly
    representable (|n| < 2^53, d <= 22): used for test values. *)
Definition b64_dec (n : Z) (d : Z) : B64 := ndiv (b64_of_Z n) (b64_of_Z (10 ^ d)).
