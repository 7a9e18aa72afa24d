(** Specification: sums over a square table of counts. *)
From Coq Require Import List Arith.
Import ListNotations.

(** The diagonal of a table, and its sum. *)
Definition diagonal (m : list (list nat)) : list nat := map (fun i => nth i (nth i m []) 0) (seq 0 (length m)).
Definition trace_of (m : list (list nat)) : nat := list_sum (diagonal m).
