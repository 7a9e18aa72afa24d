(** * The left columns of a matrix *)
From Coq Require Import List Arith.
From Verif Require Import Linalg.
Import ListNotations.

(** The first [w] columns (all, if there are fewer). *)
Definition left_cols {F} (w : nat) (m : matrix F) : matrix F := Mat (map (firstn w) (mrows m)) (Nat.min w (mcols m)).
