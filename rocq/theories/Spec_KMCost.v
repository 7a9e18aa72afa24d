(** * k-means centroids that are numbers *)
From Coq Require Import List Arith Bool Reals.
From Verif Require Import Base Num NumX Linalg Model_KMeans.
Import ListNotations.

(** The coordinates of a row all of whose entries are finite. *)
Fixpoint all_fin (r : list X) : option (list R) :=
  match r with
  | [] => Some []
  | Fin x :: r' => option_map (cons x) (all_fin r')
  | _ => None
  end.
(** The finite rows of a matrix of centroids: the centres that are left. *)
Definition usable (C : matrix X) : matrix R :=
  Mat (flat_map (fun r => match all_fin r with Some v => [v] | None => [] end) (mrows C)) (mcols C).
(** The cost that [train] computes for the centroids of a model: the sum of the squared distances to the
    assigned centroids. *)
Definition cost_of {F} {N : Num F} (m : KMeans F) (data : matrix F) : F :=
  match km_centroids m with
  | Some C => match find_closest_centroids C data with Ok (_, ds) => vsum ds | _ => nzero end
  | None => nzero
  end.
