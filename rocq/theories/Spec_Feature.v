(** * Specification: one feature, and one feature more, in linear regression *)
From Coq Require Import List Arith Reals.
From Verif Require Import Base Num Linalg Spec_Regression.
Import ListNotations.
Local Open Scope R_scope.

(** The table with the single column [xs]. *)
Definition single (xs : list R) : matrix R := Mat (map (fun x => [x]) xs) 1.
(** [X] with [c] as an additional last column. *)
Definition with_feature (X : matrix R) (c : list R) : matrix R := Mat (map2 (fun r z => r ++ [z]) (mrows X) c) (S (mcols X)).
Definition avg (xs : list R) : R := sumR (length xs) (fun i => nth i xs 0) / INR (length xs).
(** Sum of products of deviations from the averages: [codev xs xs / (n - 1)] is the sample variance, [codev xs ys / (n - 1)] the
    sample covariance. *)
Definition codev (xs ys : list R) : R := sumR (length xs) (fun i => (nth i xs 0 - avg xs) * (nth i ys 0 - avg ys)).
(** The part of [c_i] which the affine function [g] of the features does not explain. *)
Definition unexplained (X : matrix R) (c g : list R) (i : nat) : R := nth i c 0 - affine g (nth i (mrows X) []).
