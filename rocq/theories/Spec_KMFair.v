(** Specification for C178: how many ordered choices there are, and the classes given by a list of class numbers. *)
From Coq Require Import List Arith.
Import ListNotations.

(** Ordered choices of [k] of [n] things: [n (n - 1) ... (n - k + 1)]. *)
Fixpoint arrangements (n k : nat) : nat := match k with O => 1 | S k' => n * arrangements (n - 1) k' end.
(** Classes of rows: row [c < k] is in class [c], row [k + j] in the class [g] gives at [j]. *)
Definition classes_by (k : nat) (g : list nat) : list (list nat) :=
  map (fun c => c :: filter (fun i => nth (i - k) g k =? c) (seq k (length g))) (seq 0 k).
(** The events "the rows [a] were chosen, in this order" and "these are the classes". *)
Definition chosen (a : list nat) (o : option (list nat)) : bool := match o with Some l => if list_eq_dec Nat.eq_dec l a then true else false | None => false end.
Definition eqc (b l : list (list nat)) : bool := if list_eq_dec (list_eq_dec Nat.eq_dec) l b then true else false.
