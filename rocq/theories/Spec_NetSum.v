(** * Specification: training samples of a network, one by one *)
From Coq Require Import List Reals.
From Verif Require Import Base Num Linalg Model_NNet.
Import ListNotations.

(** A sample is an input row and a target row. *)
Definition sample := (list R * list R)%type.
Definition xs_of (d : nat) (l : list sample) : matrix R := Mat (map fst l) d.
Definition ts_of (c : nat) (l : list sample) : matrix R := Mat (map snd l) c.
Definition samples_fit (d c : nat) (l : list sample) : Prop := Forall (fun p => length (fst p) = d /\ length (snd p) = c) l.
(** Sum and mean of numbers belonging to samples. *)
Definition total_over {A} (f : A -> R) (l : list A) : R := fold_right Rplus 0%R (map f l).
