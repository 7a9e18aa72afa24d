(** * What DBSCAN must compute *)
From Coq Require Import List Arith Bool Reals Relations.
From Verif Require Import Num Linalg Spec_KNN.
Import ListNotations.

Section Density.
  (** [n] rows, and which pairs of rows are closer than eps. *)
  Context (n : nat) (near : nat -> nat -> Prop) (min_points : nat).

  (** At least [min_points] rows are near row [i] (a row counts itself). *)
  Definition core (i : nat) : Prop :=
    i < n /\ exists S, NoDup S /\ length S = min_points /\ forall j, In j S -> j < n /\ near i j.
  (** A chain of core rows, each near the next. *)
  Definition chain : nat -> nat -> Prop := clos_refl_trans nat (fun i j => core i /\ core j /\ near i j).

  (** The labelling [lab]: exactly the core rows are labelled; two of them alike exactly when a chain
      links them; labels are 0, 1, 2, ... in order of first appearance. *)
  Definition density_labels (lab : list (option nat)) : Prop :=
    length lab = n /\
    (forall i, i < n -> (nth i lab None <> None <-> core i)) /\
    (forall i j, core i -> core j -> (nth i lab None = nth j lab None <-> chain i j)) /\
    (forall i c c', nth i lab None = Some c -> c' < c -> exists j, j < i /\ nth j lab None = Some c').
End Density.

(** Rows closer than [eps] in straight-line distance. *)
Definition near_R (data : matrix R) (eps : R) (i j : nat) : Prop :=
  (euclid (mcols data) (nth i (mrows data) []) (nth j (mrows data) []) < eps)%R.

(** [l] is the label prediction must give to a point at distances [D] from the [n] training rows. *)
Definition nearest_label {F} {N : Num F} (n : nat) (D : nat -> F) (eps : F) (lab : list (option nat)) (l : option nat) : Prop :=
  exists i, i < n /\ (forall j, j < n -> nltb (D j) (D i) = false) /\ (forall j, j < i -> nltb (D i) (D j) = true) /\
    l = if nltb (D i) eps then nth i lab None else None.

From Verif Require Import Model_DBSCAN.
(** Histories of calls on one model object; [None]: the call did not return. *)
Inductive db_op {F} := OpTrain (data : matrix F) | OpPredictive (b : bool).
Arguments db_op : clear implicits.
Definition db_step {F} {N : Num F} (m : option (DBSCAN F)) (o : db_op F) : option (DBSCAN F) :=
  match m with
  | None => None
  | Some m =>
      match o with
      | OpTrain data => dbscan_train (nrows data) m data
      | OpPredictive b => Some (set_predictive m b)
      end
  end.
Definition db_run {F} {N : Num F} (m : DBSCAN F) (ops : list (db_op F)) : option (DBSCAN F) :=
  fold_left db_step ops (Some m).
