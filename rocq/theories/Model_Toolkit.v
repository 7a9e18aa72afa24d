(** * Model of [src/learning/toolkit/activ_fn.rs] and [regularization.rs] *)
From Coq Require Import List Arith Bool.
From Verif Require Import Base Num NumFn Linalg.
Import ListNotations.
Local Open Scope num_scope.

Section Toolkit.
  Context {F : Type} {N : Num F} {NF : NumFn F}.

  (** activ_fn.rs lines 14-27: the trait [ActivationFunc]. *)
  Record Activ := { af : F -> F; af_grad : F -> F; af_grad_out : F -> F; af_inv : F -> F }.

  (** activ_fn.rs lines 33-55. *)
  Definition sigmoid (x : F) : F := nonev / (nonev + nexp (- x)).
  (** activ_fn.rs lines 33-55: the trait implementation. *)
  Definition Sigmoid : Activ :=
    {| af := sigmoid;
       af_grad := fun x => sigmoid x * (nonev - sigmoid x);
       af_grad_out := fun y => y * (nonev - y);
       af_inv := fun x => nln (x / (nonev - x)) |}.
  (** activ_fn.rs lines 61-77. *)
  Definition LinearAct : Activ :=
    {| af := fun x => x; af_grad := fun _ => nonev; af_grad_out := fun _ => nonev; af_inv := fun x => x |}.
  (** activ_fn.rs lines 83-99. *)
  Definition Exp : Activ := {| af := nexp; af_grad := nexp; af_grad_out := fun y => y; af_inv := nln |}.
  (** activ_fn.rs lines 105-122; the literal 0.5 is the quotient 1/2. *)
  Definition Tanh : Activ :=
    {| af := ntanh;
       af_grad := fun x => let y := ntanh x in nonev - y * y;
       af_grad_out := fun y => nonev - y * y;
       af_inv := fun x => nonev / (nonev + nonev) * nln ((nonev + x) / (nonev - x)) |}.

  (** regularization.rs lines 23-32. *)
  Inductive Regularization := RegL1 (x : F) | RegL2 (x : F) | RegElasticNet (x y : F) | RegNone.

  (** regularization.rs line 61: the divisor. *)
  Definition two_rows (m : matrix F) : F := (nonev + nonev) * nofnat (nrows m).
  (** [Lp::Integer(1).norm] of [rulinalg] (regularization.rs line 60): the sum of absolute values (its final [powf(1/1)] is left out). *)
  Definition l1_norm (m : matrix F) : F := msum (mmap nabs m).
  (** [Euclidean.norm] of a matrix (regularization.rs line 79): the Frobenius norm. *)
  Definition fro_norm (m : matrix F) : F := nsqrt (msum (mzip nmul m m)).
  (** regularization.rs lines 59-62. *)
  Definition l1_reg_cost (m : matrix F) (x : F) : F := l1_norm m * x / two_rows m.
  (** regularization.rs lines 64-76. [is_sign_negative] is the comparison with 0 (they differ on -0.0 and NaN). *)
  Definition l1_reg_grad (m : matrix F) (x : F) : matrix F :=
    mmap (fun y => if y <? nzero then - x / two_rows m else x / two_rows m) m.
  (** regularization.rs lines 78-80. *)
  Definition l2_reg_cost (m : matrix F) (x : F) : F := fro_norm m * x / two_rows m.
  (** regularization.rs lines 82-84. *)
  Definition l2_reg_grad (m : matrix F) (x : F) : matrix F := mmap (fun y => y * (x / nofnat (nrows m))) m.

  (** regularization.rs lines 36-45. *)
  Definition reg_cost (r : Regularization) (m : matrix F) : F :=
    match r with
    | RegL1 x => l1_reg_cost m x
    | RegL2 x => l2_reg_cost m x
    | RegElasticNet x y => l1_reg_cost m x + l2_reg_cost m y
    | RegNone => nzero
    end.
  (** regularization.rs lines 48-57. *)
  Definition reg_grad (r : Regularization) (m : matrix F) : matrix F :=
    match r with
    | RegL1 x => l1_reg_grad m x
    | RegL2 x => l2_reg_grad m x
    | RegElasticNet x y => mzip nadd (l1_reg_grad m x) (l2_reg_grad m y)
    | RegNone => mmap (fun _ => nzero) m
    end.
End Toolkit.
Arguments Activ : clear implicits.
Arguments Regularization : clear implicits.
