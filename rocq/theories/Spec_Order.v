(** * Data sets with the order of their rows made explicit *)
From Coq Require Import List Permutation.
From Verif Require Import Linalg.
Import ListNotations.

(** A training set is a list of samples (row, target); [w] is the number of columns. *)
Definition rows_of {F T} (w : nat) (l : list (list F * T)) : matrix F := Mat (map fst l) w.
Definition targets_of {F T} (l : list (list F * T)) : list T := map snd l.
Definition target_rows {F} (k : nat) (l : list (list F * list F)) : matrix F := Mat (map snd l) k.
