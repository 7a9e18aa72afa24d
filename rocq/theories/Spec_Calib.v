(** * Answers that balance the targets *)
From Coq Require Import List Arith Reals.
From Verif Require Import Base Num Linalg Spec_Regression.
Import ListNotations.
Local Open Scope R_scope.

(** Feature [k] of row [i], where feature 0 is the constant 1. *)
Definition feature (X : matrix R) (i k : nat) : R := nth k (1 :: nth i (mrows X) []) 0.
(** The mean of (answer - target) times feature [k]; for [k = 0] the mean answer minus the mean target. *)
Definition bias (X : matrix R) (y out : list R) (k : nat) : R :=
  sumR (nrows X) (fun i => (nth i out 0 - nth i y 0) * feature X i k) / INR (nrows X).
(** Answers and targets have the same total, and the same total weighted by each feature. *)
Definition balances (X : matrix R) (y out : list R) : Prop :=
  forall k, (k <= mcols X)%nat -> sumR (nrows X) (fun i => nth i out 0 * feature X i k) = sumR (nrows X) (fun i => nth i y 0 * feature X i k).
