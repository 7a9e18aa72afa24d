(** * Specification for the confusion matrix: counting, independent of the model *)
From Coq Require Import List Arith Bool Sorted.
Import ListNotations.

(** Total order given by a boolean comparison. *)
Definition total_order {T} (leb : T -> T -> bool) : Prop :=
  (forall x y, leb x y = true \/ leb y x = true) /\
  (forall x y, leb x y = true -> leb y x = true -> x = y) /\
  (forall x y z, leb x y = true -> leb y z = true -> leb x z = true).

(** [eqb] decides equality. *)
Definition decides_eq {T} (eqb : T -> T -> bool) : Prop := forall x y, eqb x y = true <-> x = y.

(** Number of samples with target [t] and prediction [p]: positions are aligned. *)
Fixpoint samples {T} (eqb : T -> T -> bool) (t p : T) (targets predictions : list T) : nat :=
  match targets, predictions with
  | t' :: ts, p' :: ps =>
      (if eqb t t' && eqb p p' then 1 else 0) + samples eqb t p ts ps
  | _, _ => 0
  end.

(** Strictly ascending list. *)
Definition ascending {T} (leb : T -> T -> bool) (l : list T) : Prop :=
  StronglySorted (fun x y => leb x y = true /\ x <> y) l.

(** [m] is an [n x n] table. *)
Definition square {A} (n : nat) (m : list (list A)) : Prop :=
  length m = n /\ forall r, In r m -> length r = n.

Definition entry {A} (m : list (list A)) (i j : nat) : option A :=
  match nth_error m i with Some r => nth_error r j | None => None end.

(** [m] tabulates the samples by the labels [ls]: entry (i,j) = #samples with target [ls_i],
    prediction [ls_j]. *)
Definition tabulates {T} (eqb : T -> T -> bool) (ls targets predictions : list T) (m : list (list nat)) : Prop :=
  square (length ls) m /\
  forall i j t p, nth_error ls i = Some t -> nth_error ls j = Some p ->
    entry m i j = Some (samples eqb t p targets predictions).

Definition total (m : list (list nat)) : nat := list_sum (map list_sum m).
