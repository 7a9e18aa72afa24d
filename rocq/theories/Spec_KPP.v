(** * What k-means++ seeding must achieve *)
From Coq Require Import List Arith Bool Reals.
From Coquelicot Require Import Hierarchy RInt.
From Verif Require Import Base Num Linalg Model_KMeans.
Import ListNotations.

(** Squared distance of two points with [d] coordinates. *)
Definition sqd (d : nat) (x c : list R) : R := sumR d (fun j => (nth j x 0 - nth j c 0) ^ 2)%R.
(** ... of [x] to the nearest of the centres [cs]. *)
Fixpoint nearest_sq (d : nat) (x : list R) (cs : list (list R)) : R :=
  match cs with
  | [] => 0%R
  | [c] => sqd d x c
  | c :: cs' => Rmin (sqd d x c) (nearest_sq d x cs')
  end.
(** The k-means objective of the centres [C]: every row counts with its nearest centre. *)
Definition potential (data C : matrix R) : R :=
  sumR (nrows data) (fun i => nearest_sq (mcols data) (nth i (mrows data) []) (mrows C)).

(** [v] is the mean of [f] over [t] independent draws, each uniform in [[0, 1]]: an iterated Riemann integral. *)
Inductive mean_of : nat -> (list R -> R) -> R -> Prop :=
| mean_none f : mean_of 0 f (f [])
| mean_one t f g v : (forall u, (0 < u < 1)%R -> mean_of t (fun us => f (u :: us)) (g u)) -> is_RInt g 0 1 v -> mean_of (S t) f v.

(** The objective of the centroids that k-means++ answers. *)
Definition seeded (data : matrix R) (k first : nat) (us : list R) : R :=
  match kpp data k first us with Ok (_, C) => potential data C | _ => 0%R end.
(** 1 if the last centroid that k-means++ chooses is the row at position [i], else 0. *)
Definition picks_last (data : matrix R) (k first : nat) (us : list R) (i : nat) : R :=
  match kpp data k first us with Ok (chosen, _) => if (last chosen 0 =? i)%nat then 1%R else 0%R | _ => 0%R end.
