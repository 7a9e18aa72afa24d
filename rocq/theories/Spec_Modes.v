(** Specification for gradient descent on least squares, direction by direction. *)
From Coq Require Import List Arith Reals.
From Verif Require Import Base Num Linalg Spec_Regression.
Import ListNotations.
Local Open Scope R_scope.

(** Inner product of parameter vectors of length [n]. *)
Definition inner_prod (n : nat) (u v : list R) : R := sumR n (fun a => nth a u 0 * nth a v 0).
(** [v] is a direction in which the mean square of the fitted values curves by [lambda] and which does not interact
    with the directions orthogonal to it (an eigenvector of Z'Z/n, for [Z] the rows with a leading one). *)
Definition mode (X : matrix R) (v : list R) (lambda : R) : Prop :=
  length v = S (mcols X) /\ forall u, length u = S (mcols X) ->
    sumR (nrows X) (fun i => affine v (nth i (mrows X) []) * affine u (nth i (mrows X) [])) = lambda * INR (nrows X) * inner_prod (S (mcols X)) v u.
(** How far [p] is from [q] in the direction [v]. *)
Definition offset (X : matrix R) (v p q : list R) : R := inner_prod (S (mcols X)) v p - inner_prod (S (mcols X)) v q.
(** [q] has the least sum of squared residuals. *)
Definition best_fit (X : matrix R) (y q : list R) : Prop :=
  length q = S (mcols X) /\ forall q', length q' = S (mcols X) -> rss X y q <= rss X y q'.
(** In every such direction [w] is [1 - alpha lambda] times as far from every best fit as [start], [j] times over. *)
Definition shrunk (X : matrix R) (y : list R) (alpha : R) (j : nat) (start w : list R) : Prop :=
  forall q v lambda, best_fit X y q -> mode X v lambda -> offset X v w q = (1 - alpha * lambda) ^ j * offset X v start q.
