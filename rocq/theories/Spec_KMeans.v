(** * What k-means must compute *)
From Coq Require Import List Arith Bool Reals Permutation.
From Verif Require Import Base Num Linalg Spec_Calc Spec_KNN.
Import ListNotations.

(** [j] is the closest of the [k] centres at distances [D] (the first one on ties). *)
Definition is_closest {F} {N : Num F} (k : nat) (D : nat -> F) (j : nat) : Prop :=
  j < k /\ (forall i, i < k -> nltb (D i) (D j) = false) /\ (forall i, i < j -> nltb (D j) (D i) = true).
Definition is_closest_R (k : nat) (D : nat -> R) (j : nat) : Prop :=
  j < k /\ (forall i, i < k -> (D j <= D i)%R) /\ (forall i, i < j -> (D j < D i)%R).

(** The k-means objective: squared distances of the rows to the centroids assigned to them. *)
Definition objective (data centroids : matrix R) (assign : list nat) : R :=
  sumR (nrows data) (fun i => sumR (mcols data) (fun c => (entry data i c - entry centroids (nth i assign 0%nat) c) ^ 2)%R).

(** Centroid [c] is the mean of the rows assigned to it. *)
Definition is_mean_of (data centroids : matrix R) (assign : list nat) (c : nat) : Prop :=
  forall j, j < mcols data ->
    (entry centroids c j * sumR (nrows data) (fun i => if nth i assign 0%nat =? c then 1 else 0) =
     sumR (nrows data) (fun i => if nth i assign 0%nat =? c then entry data i j else 0))%R.
Definition nonempty (assign : list nat) (k : nat) : Prop := forall c, c < k -> In c assign.

(** [k] rows of the data at [k] different positions. *)
Definition distinct_rows {F} (data : matrix F) (k : nat) (chosen : list nat) (c : matrix F) : Prop :=
  NoDup chosen /\ length chosen = k /\ Forall (fun i => i < nrows data) chosen /\
  mcols c = mcols data /\ mrows c = map (fun i => nth i (mrows data) []) chosen.
(** ... none equal to another. *)
Definition different_rows {F} (data : matrix F) (chosen : list nat) : Prop :=
  NoDup (map (fun i => nth i (mrows data) []) chosen).

(** [classes] splits the positions [0 .. n-1] into non-empty classes. *)
Definition splits (n : nat) (classes : list (list nat)) : Prop :=
  Permutation (concat classes) (seq 0 n) /\ Forall (fun c => c <> []) classes.

(** One Lloyd step: every row goes to its closest centre, every centre that got a row moves to the
    mean of its rows. [assign] is the assignment. *)
Definition lloyd_step_spec (data : matrix R) (k : nat) (assign : list nat) (C C' : matrix R) : Prop :=
  length assign = nrows data /\
  (forall i, i < nrows data -> is_closest_R k (fun c => euclid (mcols data) (nth i (mrows data) []) (nth c (mrows C) [])) (nth i assign 0)) /\
  nrows C' = k /\ mcols C' = mcols data /\ (forall c, c < k -> In c assign -> is_mean_of data C' assign c).

(** A run of Lloyd steps in which no centre ever loses all its rows; the lists give the assignments
    made and the centres after each step. *)
Inductive lloyd_run (data : matrix R) (k : nat) : matrix R -> list (list nat * matrix R) -> Prop :=
| lrun_nil C : lloyd_run data k C []
| lrun_cons C a C' l : lloyd_step_spec data k a C C' -> nonempty a k -> lloyd_run data k C' l -> lloyd_run data k C ((a, C') :: l).

Definition last_centres (C : matrix R) (l : list (list nat * matrix R)) : matrix R := last (map snd l) C.

(** Centroid [c] is the mean of the rows at the positions [v]. *)
Definition is_mean_at (data centroids : matrix R) (c : nat) (v : list nat) : Prop :=
  forall j, j < mcols data ->
    (entry centroids c j * INR (length v) = fold_right Rplus 0 (map (fun i => entry data i j) v))%R.

(** At least [k] rows differ from each other. *)
Definition has_distinct {F} (data : matrix F) (k : nat) : Prop :=
  exists D, length D = k /\ Forall (fun i => i < nrows data) D /\ different_rows data D.
