(** * Model of [src/learning/toolkit/kernel.rs] *)
From Coq Require Import List Arith Bool.
From Verif Require Import Base Num NumFn Linalg Model_Optim.
Import ListNotations.
Local Open Scope num_scope.

Section Kernel.
  Context {F : Type} {N : Num F} {NF : NumFn F}.

  (** The trait [Kernel], kernel.rs lines 14-19: a function of two slices, which may panic. *)
  Definition Kernel := list F -> list F -> res F.

  (** The literal [2f64], kernel.rs line 291. *)
  Definition two : F := nonev + nonev.

  (** [KernelSum], kernel.rs lines 43-60; built by [+] on [KernelArith], lines 107-116. *)
  Definition kernel_sum (k1 k2 : Kernel) : Kernel := fun x1 x2 => let? a := k1 x1 x2 in let? b := k2 x1 x2 in Ok (a + b).
  (** [KernelProd], kernel.rs lines 84-101; built by [*] on [KernelArith], lines 118-127. *)
  Definition kernel_prod (k1 k2 : Kernel) : Kernel := fun x1 x2 => let? a := k1 x1 x2 in let? b := k2 x1 x2 in Ok (a * b).

  (** [Linear], kernel.rs lines 132-171.  [utils::dot] of [rulinalg] works on the common prefix of its two
      slices. *)
  Definition k_linear (c : F) : Kernel := fun x1 x2 => Ok (dot x1 x2 + c).
  (** [Polynomial], kernel.rs lines 176-230. *)
  Definition k_polynomial (alpha c d : F) : Kernel := fun x1 x2 => Ok (npowf (alpha * dot x1 x2 + c) d).
  (** [SquaredExp], kernel.rs lines 239-294. *)
  Definition k_squared_exp (ls ampl : F) : Kernel := fun x1 x2 =>
    rassert (length x1 =? length x2)%nat
      (let? diff := rvsub x1 x2 in
       let x := - dot diff diff / (two * ls * ls) in
       Ok (ampl * nexp x)).
  (** [Exponential], kernel.rs lines 301-356. *)
  Definition k_exponential (ls ampl : F) : Kernel := fun x1 x2 =>
    rassert (length x1 =? length x2)%nat
      (let? diff := rvsub x1 x2 in
       let x := - norm2 diff / (two * ls * ls) in
       Ok (ampl * nexp x)).
  (** [HyperTan], kernel.rs lines 361-410. *)
  Definition k_hyper_tan (alpha c : F) : Kernel := fun x1 x2 => Ok (ntanh (alpha * dot x1 x2 + c)).
  (** [Multiquadric], kernel.rs lines 415-457; [hypot] is the square root of the sum of squares. *)
  Definition k_multiquadric (c : F) : Kernel := fun x1 x2 =>
    rassert (length x1 =? length x2)%nat
      (let? diff := rvsub x1 x2 in
       let m := norm2 diff in Ok (nsqrt (m * m + c * c))).
  (** [RationalQuadratic], kernel.rs lines 462-513. *)
  Definition k_rational_quadratic (alpha ls : F) : Kernel := fun x1 x2 =>
    let? diff := rvsub x1 x2 in
    Ok (npowf (nonev + dot diff diff / (two * alpha * ls * ls)) (- alpha)).
End Kernel.
Arguments Kernel : clear implicits.
