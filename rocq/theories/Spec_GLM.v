(** Specification for generalised linear models. *)
From Coq Require Import List Arith Reals.
From Verif Require Import Base Num Linalg Spec_Regression.
Import ListNotations.
Local Open Scope R_scope.

(** What is assumed of [Matrix::inverse]: an answer is an inverse. *)
Definition inverse_sound (inverse : matrix R -> option (matrix R)) : Prop :=
  forall A B, mwf A -> nrows A = mcols A -> inverse A = Some B ->
    mwf B /\ nrows B = nrows A /\ mcols B = nrows A /\
    forall v, length v = nrows A -> mat_vec A (mat_vec B v) = v /\ mat_vec B (mat_vec A v) = v.

(** Log-likelihood (up to a constant) of an exponential family with the canonical parameter
    [eta = affine p x] and cumulant function [A]: [sum_i (y_i eta_i - A eta_i)]. *)
Definition loglik (A : R -> R) (X : matrix R) (y p : list R) : R :=
  sumR (nrows X) (fun i => nth i y 0 * affine p (nth i (mrows X) []) - A (affine p (nth i (mrows X) []))).
Definition normal_cumulant (e : R) : R := e ^ 2 / 2.
Definition poisson_cumulant (e : R) : R := exp e.
Definition bernoulli_cumulant (e : R) : R := ln (1 + exp e).
(** [p] is a maximum-likelihood estimate. *)
Definition is_mle (A : R -> R) (X : matrix R) (y p : list R) : Prop :=
  length p = S (mcols X) /\ forall q, length q = S (mcols X) -> loglik A X y q <= loglik A X y p.

(** Weighted sum of squared residuals. *)
Definition wrss (w : list R) (X : matrix R) (y p : list R) : R :=
  sumR (nrows X) (fun i => nth i w 0 * (nth i y 0 - affine p (nth i (mrows X) [])) ^ 2).
