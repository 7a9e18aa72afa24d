(** * Exact extended arithmetic: reals, infinities and NaN

    Follows IEEE 754 for the special values, with exact (unrounded, unbounded) finite
    arithmetic and a single unsigned zero ([x/0] has the sign of [x]). *)
From Coq Require Import Reals Bool.
From Verif Require Import Num.
Local Open Scope R_scope.

(** [f64] without rounding: a real, an infinity or NaN. *)
Inductive X : Type := Fin (r : R) | PInf | NInf | NaN.

(** Unary minus on [f64]. *)
Definition xopp (a : X) : X :=
  match a with Fin r => Fin (- r) | PInf => NInf | NInf => PInf | NaN => NaN end.

(** [f64::abs]. *)
Definition xabs (a : X) : X :=
  match a with Fin r => Fin (Rabs r) | PInf => PInf | NInf => PInf | NaN => NaN end.

(** [+] on [f64]: opposite infinities give NaN. *)
Definition xadd (a b : X) : X :=
  match a, b with
  | Fin x, Fin y => Fin (x + y)
  | NaN, _ | _, NaN => NaN
  | PInf, NInf | NInf, PInf => NaN
  | PInf, _ | _, PInf => PInf
  | NInf, _ | _, NInf => NInf
  end.
(** [-] on [f64]. *)
Definition xsub (a b : X) : X := xadd a (xopp b).

(** Infinity carrying the sign of [r] ([NaN] when [r = 0], for [0 * inf] and [0 / 0]). *)
Definition sgn_inf (r : R) : X :=
  if Rlt_dec 0 r then PInf else if Rlt_dec r 0 then NInf else NaN.

(** [*] on [f64]: zero times an infinity is NaN. *)
Definition xmul (a b : X) : X :=
  match a, b with
  | Fin x, Fin y => Fin (x * y)
  | NaN, _ | _, NaN => NaN
  | Fin x, PInf | PInf, Fin x => sgn_inf x
  | Fin x, NInf | NInf, Fin x => sgn_inf (- x)
  | PInf, PInf | NInf, NInf => PInf
  | PInf, NInf | NInf, PInf => NInf
  end.

(** [/] on [f64]: 0/0 and infinity/infinity are NaN, other divisions by zero infinite. *)
Definition xdiv (a b : X) : X :=
  match a, b with
  | Fin x, Fin y => if Req_EM_T y 0 then sgn_inf x else Fin (x / y)
  | NaN, _ | _, NaN => NaN
  | Fin _, PInf | Fin _, NInf => Fin 0
  | PInf, Fin y => if Rlt_dec y 0 then NInf else PInf
  | NInf, Fin y => if Rlt_dec y 0 then PInf else NInf
  | _, _ => NaN
  end.

(** [f64::sqrt]: NaN below zero. *)
Definition xsqrt (a : X) : X :=
  match a with
  | Fin x => if Rlt_dec x 0 then NaN else Fin (sqrt x)
  | PInf => PInf | NInf => NaN | NaN => NaN
  end.

(** [<] on [f64]: false when an operand is NaN. *)
Definition xltb (a b : X) : bool :=
  match a, b with
  | Fin x, Fin y => if Rlt_dec x y then true else false
  | NaN, _ | _, NaN => false
  | NInf, NInf => false | NInf, _ => true
  | _, PInf => match a with PInf => false | _ => true end
  | _, _ => false
  end.
(** [==] on [f64]. *)
Definition xeqb (a b : X) : bool :=
  match a, b with
  | Fin x, Fin y => if Req_EM_T x y then true else false
  | PInf, PInf | NInf, NInf => true
  | _, _ => false
  end.
(** [<=] on [f64]. *)
Definition xleb (a b : X) : bool := xltb a b || xeqb a b.

(** [f64::is_finite]. *)
Definition xfinite (a : X) : bool := match a with Fin _ => true | _ => false end.
(** [f64::is_nan]. *)
Definition xnan (a : X) : bool := match a with NaN => true | _ => false end.

(** [f64::MAX] is a finite number of the model. *)
Global Instance NumXI : Num X := {
  nzero := Fin 0; nonev := Fin 1;
  nadd := xadd; nsub := xsub; nmul := xmul; ndiv := xdiv; nopp := xopp; nabs := xabs; nsqrt := xsqrt;
  nltb := xltb; nleb := xleb; neqb := xeqb; nfinite := xfinite; nnan := xnan;
  nofnat := fun n => Fin (INR n); nmaxv := Fin f64_max_R
}.
