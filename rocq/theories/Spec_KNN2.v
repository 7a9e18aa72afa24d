(** * What a classifier with one neighbour must answer on its own training rows *)
From Coq Require Import List Arith Reals.
From Flocq Require Import Core.
From Verif Require Import Num NumF Linalg Spec_B64.
Import ListNotations.

(** Every answer is the target of a training row equal to the query. *)
Definition recalls {F} (data : matrix F) (targets out : list nat) : Prop :=
  length out = nrows data /\
  forall i, i < nrows data -> exists j, j < nrows data /\ nth j (mrows data) [] = nth i (mrows data) [] /\ nth i out 0 = nth j targets 0.
(** ... or of one closer to it than 2^-524. *)
Definition nearly_recalls (data : matrix B64) (targets out : list nat) : Prop :=
  length out = nrows data /\
  forall i, i < nrows data -> exists j, j < nrows data /\
    (true_dist (mcols data) (nth i (mrows data) []) (nth j (mrows data) []) <= bpow radix2 (-524))%R /\ nth i out 0 = nth j targets 0.
