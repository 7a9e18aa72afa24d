(** * Partial derivatives of functions of vectors and matrices *)
From Coq Require Import List Arith Reals.
From Verif Require Import Base Linalg.
Import ListNotations.
Local Open Scope R_scope.

Fixpoint vset {A} (v : list A) (i : nat) (x : A) : list A :=
  match v, i with
  | [], _ => []
  | _ :: v', O => x :: v'
  | y :: v', S i' => y :: vset v' i' x
  end.

Definition entry (m : matrix R) (i j : nat) : R := nth j (nth i (mrows m) []) 0.
Definition mset (m : matrix R) (i j : nat) (x : R) : matrix R :=
  Mat (vset (mrows m) i (vset (nth i (mrows m) []) j x)) (mcols m).

(** [f] succeeds when the entry (i,j) of [m] is varied, and its derivative at [m] is [d]. *)
Definition has_partial (f : matrix R -> res R) (m : matrix R) (i j : nat) (d : R) : Prop :=
  exists c, (forall x, f (mset m i j x) = Ok (c x)) /\ derivable_pt_lim c (entry m i j) d.

Definition has_partial_vec (f : list R -> res R) (v : list R) (i : nat) (d : R) : Prop :=
  exists c, (forall x, f (vset v i x) = Ok (c x)) /\ derivable_pt_lim c (nth i v 0) d.
