(** * Elementary functions as a further parameter of the models *)
From Coq Require Import Reals Bool.
Local Open Scope R_scope.
From Verif Require Import Num NumX.

(** The elementary functions on [f64] (Rust) the models use. *)
Class NumFn (F : Type) := {
  nexp : F -> F;              (* f64::exp *)
  nln : F -> F;               (* f64::ln *)
  ntanh : F -> F;             (* f64::tanh *)
  npowf : F -> F -> F;        (* f64::powf *)
  npi : F                     (* std::f64::consts::PI *)
}.

(** Rust [powf] over the reals: for a base that is not positive only integral exponents are
    meaningful (otherwise the result would be NaN or infinite, here 0). *)
Definition Rpowf (x y : R) : R :=
  if Rlt_dec 0 x then Rpower x y
  else if Req_EM_T (IZR (Int_part y)) y then powerRZ x (Int_part y) else 0.
(** Over the reals; [ln] is only meaningful on positive arguments, to which the theorems restrict
    themselves. *)
Global Instance NumFnR : NumFn R := {
  nexp := exp; nln := ln; ntanh := tanh; npowf := Rpowf; npi := PI
}.

(** Rust [f64::exp] on special values. *)
Definition xexp (a : X) : X :=
  match a with Fin x => Fin (exp x) | PInf => PInf | NInf => Fin 0 | NaN => NaN end.
(** Rust [f64::ln] on special values. *)
Definition xln (a : X) : X :=
  match a with
  | Fin x => if Rlt_dec 0 x then Fin (ln x) else if Rlt_dec x 0 then NaN else NInf
  | PInf => PInf | NInf => NaN | NaN => NaN
  end.
(** Rust [f64::tanh] on special values. *)
Definition xtanh (a : X) : X :=
  match a with Fin x => Fin (tanh x) | PInf => Fin 1 | NInf => Fin (-1) | NaN => NaN end.
(** Rust [f64::powf]; only finite arguments are specified. *)
Definition xpowf (a b : X) : X :=
  match a, b with
  | Fin x, Fin y =>
      if Rlt_dec 0 x then Fin (Rpower x y)
      else if Rlt_dec x 0 then (if Req_EM_T (IZR (Int_part y)) y then Fin (powerRZ x (Int_part y)) else NaN)
      else if Rlt_dec 0 y then Fin 0 else if Rlt_dec y 0 then PInf else Fin 1
  | _, _ => NaN
  end.
(** Over the extended reals. *)
Global Instance NumFnX : NumFn X := {
  nexp := xexp; nln := xln; ntanh := xtanh; npowf := xpowf; npi := Fin PI
}.
