(** * How deep and how large a search tree is *)
From Coq Require Import List Arith Reals.
From Verif Require Import Num Linalg Model_KNN.
Import ListNotations.

Section Trees.
  Context {F : Type} {N : Num F} {G : Type}.

  (** Nodes on the longest way down: how many calls of the recursive construction are open at once, and how many
      nested drops freeing the tree takes. *)
  Fixpoint depth (t : node (F := F) G) : nat :=
    match t with Leaf _ => 1 | Branch _ _ _ l r => S (Nat.max (depth l) (depth r)) end.

  (** All nodes of the tree. *)
  Fixpoint nodes (t : node (F := F) G) : list (node (F := F) G) :=
    t :: match t with Leaf _ => [] | Branch _ _ _ l r => nodes l ++ nodes r end.
End Trees.

(** The points 1, 2, 4, ..., one per row. *)
Definition doubling (n : nat) : matrix R := Mat (map (fun i => [(2 ^ i)%R]) (seq 0 n)) 1.
