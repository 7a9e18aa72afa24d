(** * Arithmetic as a parameter of the models

    The models are written over a record of operations (no laws).  [f64] arithmetic in the code is
    interpreted by one of three instances: [R] (exact), [X] (exact reals with infinities and NaN,
    [NumX.v]) and [B64] (IEEE binary64, [NumF.v]). *)
From Coq Require Import Reals Bool.

(** The operations on [f64] (Rust) the models use. *)
Class Num (F : Type) := {
  nzero : F;
  nonev : F;
  nadd : F -> F -> F;
  nsub : F -> F -> F;
  nmul : F -> F -> F;
  ndiv : F -> F -> F;
  nopp : F -> F;
  nabs : F -> F;
  nsqrt : F -> F;
  nltb : F -> F -> bool;      (* Rust [<] on f64: false when an operand is NaN *)
  nleb : F -> F -> bool;      (* Rust [<=] *)
  neqb : F -> F -> bool;      (* Rust [==] *)
  nfinite : F -> bool;        (* f64::is_finite *)
  nnan : F -> bool;           (* f64::is_nan *)
  nofnat : nat -> F;          (* [usize as f64] *)
  nmaxv : F                   (* f64::MAX; f64::MIN is its negation *)
}.

Declare Scope num_scope.
Delimit Scope num_scope with num.
Infix "+" := nadd : num_scope.
Infix "-" := nsub : num_scope.
Infix "*" := nmul : num_scope.
Infix "/" := ndiv : num_scope.
Notation "- x" := (nopp x) : num_scope.
Infix "<?" := nltb : num_scope.
Infix "<=?" := nleb : num_scope.
Notation "x >? y" := (nltb y x) (at level 70) : num_scope.
Notation "x >=? y" := (nleb y x) (at level 70) : num_scope.
Infix "=?" := neqb : num_scope.

(** The real value of [f64::MAX] (Rust). *)
Definition f64_max_R : R := (IZR (2 ^ 53 - 1) * IZR (2 ^ 971))%R.

(** Exact reals. [nmaxv] is the value of f64::MAX (arithmetic itself is unbounded). *)
Global Instance NumR : Num R := {
  nzero := 0%R; nonev := 1%R;
  nadd := Rplus; nsub := Rminus; nmul := Rmult; ndiv := Rdiv; nopp := Ropp; nabs := Rabs; nsqrt := sqrt;
  nltb := fun x y => if Rlt_dec x y then true else false;
  nleb := fun x y => if Rle_dec x y then true else false;
  neqb := fun x y => if Req_EM_T x y then true else false;
  nfinite := fun _ => true; nnan := fun _ => false;
  nofnat := INR; nmaxv := f64_max_R
}.
