(** * Costs and errors *)
From Coq Require Import List Arith Bool Reals.
From Verif Require Import Base Num Linalg Spec_Calc Spec_Cost.
Import ListNotations.
Local Open Scope R_scope.

(** The answer nearest to a prediction, 0 or 1. *)
Definition rounded (x : R) : R := if Rlt_dec (1 / 2) x then 1 else 0.

(** All entries of [o] strictly between 0 and 1. *)
Definition entries_within (o : matrix R) : Prop := forall i j, (i < nrows o)%nat -> (j < mcols o)%nat -> 0 < entry o i j < 1.
(** All entries of [t] between 0 and 1. *)
Definition entries_unit (t : matrix R) : Prop := forall i j, (i < nrows t)%nat -> (j < mcols t)%nat -> 0 <= entry t i j <= 1.
(** All entries of [t] are 0 or 1. *)
Definition binary (t : matrix R) : Prop := forall i j, (i < nrows t)%nat -> (j < mcols t)%nat -> entry t i j = 0 \/ entry t i j = 1.

(** The number of entries of [o] whose rounding is not the entry of [t]. *)
Definition wrong_entries (o t : matrix R) : R :=
  sum_entries (nrows o) (mcols o) (fun i j => if Req_EM_T (rounded (entry o i j)) (entry t i j) then 0 else 1).
