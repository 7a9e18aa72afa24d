(** * Specification: DBSCAN on more rows *)
From Coq Require Import List Arith Reals Relations.
From Verif Require Import Num Linalg Model_DBSCAN Spec_DBSCAN.
Import ListNotations.

(** Training with radius [eps] and [min_points] gives the rows of [data] the labels [lab]. *)
Definition gets_labels {F} {N : Num F} (eps : F) (min_points : nat) (data : matrix F) (lab : list (option nat)) : Prop :=
  forall m : DBSCAN F, db_eps m = eps -> db_min_points m = min_points ->
  exists m1, dbscan_train (nrows data) m data = Some m1 /\ db_clusters m1 = Some lab.
(** [data] followed by the rows [extra]. *)
Definition more_rows {F} (data : matrix F) (extra : list (list F)) : matrix F := Mat (mrows data ++ extra) (mcols data).
(** Linked by steps between near rows, whether core or not. *)
Definition linked (n : nat) (near : nat -> nat -> Prop) : nat -> nat -> Prop := clos_refl_trans nat (fun i j => i < n /\ j < n /\ near i j).
