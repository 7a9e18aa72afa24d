(** * Specification: the passes of iteratively reweighted least squares *)
From Coq Require Import List Arith Reals.
From Verif Require Import Base Num NumFn Linalg Spec_Calc Spec_Regression Model_GLM.
Import ListNotations.
Local Open Scope R_scope.

Inductive library_criterion : Criterion R -> Prop :=
| lc_bernoulli : library_criterion Bernoulli
| lc_binomial weights : library_criterion (Binomial weights)
| lc_normal : library_criterion Normal
| lc_poisson : library_criterion Poisson.

(** [p] is the one affine function whose residuals from [z], weighted by [w], are orthogonal to all affine functions on the rows of [X]. *)
Definition solves (X : matrix R) (w z p : list R) : Prop :=
  length p = S (mcols X) /\ forall q, length q = S (mcols X) ->
    sumR (nrows X) (fun i => nth i w 0 * (nth i z 0 - affine p (nth i (mrows X) [])) * affine q (nth i (mrows X) [])) = 0.
Definition weighted_fit (X : matrix R) (w z p : list R) : Prop := solves X w z p /\ forall p', solves X w z p' -> p' = p.

(** The coefficients [p] after pass [k], with the means [mu] and the working responses [z] for the next pass. *)
Inductive after_pass (cr : Criterion R) (X : matrix R) (y : list R) : nat -> list R -> list R -> list R -> Prop :=
| ap_first w p : cr_working_weight cr (cr_initialize_mu cr y) = Ok w -> weighted_fit X w (cr_initialize_mu cr y) p ->
    after_pass cr X y 1 p (map (fun x => lk_inv (cr_link cr) (affine p x)) (mrows X)) (vadd (cr_y_bar cr y (cr_initialize_mu cr y)) (map (affine p) (mrows X)))
| ap_next k p mu z w p' : after_pass cr X y k p mu z -> cr_working_weight cr mu = Ok w -> weighted_fit X w z p' ->
    after_pass cr X y (S k) p' (map (fun x => lk_inv (cr_link cr) (affine p' x)) (mrows X)) (vadd (cr_y_bar cr y mu) (map (affine p') (mrows X))).
(** The coefficients moved by at least 1e-10 between pass [k - 1] (or the zero start) and pass [k]. *)
Definition moved_on (p p' : list R) : Prop := / 10 ^ 10 <= sumR (length p') (fun j => Rabs (nth j p 0 - nth j p' 0)).
