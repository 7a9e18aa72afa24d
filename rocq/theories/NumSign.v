(** * [f64::signum] *)
From Coq Require Import Bool.
From Verif Require Import Num.
Local Open Scope num_scope.

(** [f64::signum]: NaN for NaN, otherwise -1 or 1 by the sign bit.  A zero with the sign bit set is
    recognised by its reciprocal being negative. *)
Definition nsignum {F : Type} {N : Num F} (d : F) : F :=
  if nnan d then d
  else if (d <? nzero) || (neqb d nzero && (nonev / d <? nzero)) then - nonev else nonev.
