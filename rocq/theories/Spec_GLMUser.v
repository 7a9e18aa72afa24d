(** * Specification: quasi-likelihood estimates *)
From Coq Require Import List Arith Reals.
From Verif Require Import Base Num NumFn Linalg Spec_Calc Spec_Regression Model_GLM.
Import ListNotations.
Local Open Scope R_scope.

(** The estimating equations of Wedderburn for means [mu_i = h (affine p x_i)] with variance function [V] and link gradient [g']:
    the sum of [(y_i - mu_i) / (V mu_i * g' mu_i)] times any affine function of the row vanishes. *)
Definition quasi_score (h V g' : R -> R) (X : matrix R) (y p : list R) : Prop :=
  length p = S (mcols X) /\ forall q, length q = S (mcols X) ->
    sumR (nrows X) (fun i => let mu := h (affine p (nth i (mrows X) [])) in
      (nth i y 0 - mu) / (V mu * g' mu) * affine q (nth i (mrows X) [])) = 0.
