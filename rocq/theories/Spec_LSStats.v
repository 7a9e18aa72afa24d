(** * Least squares as a statistical estimate *)
From Coq Require Import List Arith Reals.
From Verif Require Import Base Num Linalg Model_Regression Spec_Regression.
Import ListNotations.
Local Open Scope R_scope.

(** Training on [X], [y] succeeds and stores [p], whatever was stored before. *)
Definition learns (solve : matrix R -> list R -> res (list R)) (X : matrix R) (y p : list R) : Prop :=
  forall self : LinRegressor R, lr_train solve self X y = ({| lr_parameters := Some p |}, Ok tt).

(** Noise on [n] targets with [m] possible outcomes: outcome [s] has probability [pr s] and adds the numbers [e s]; the
    noise on each target has mean zero and variance [s2], and the noises on different targets are uncorrelated. *)
Record noise_law (n m : nat) (pr : nat -> R) (e : nat -> list R) (s2 : R) : Prop := {
  nl_nonneg : forall s, (s < m)%nat -> 0 <= pr s;
  nl_total : sumR m pr = 1;
  nl_length : forall s, (s < m)%nat -> length (e s) = n;
  nl_mean : forall i, (i < n)%nat -> sumR m (fun s => pr s * nth i (e s) 0) = 0;
  nl_variance : forall i, (i < n)%nat -> sumR m (fun s => pr s * nth i (e s) 0 ^ 2) = s2;
  nl_uncorrelated : forall i j, (i < n)%nat -> (j < n)%nat -> i <> j ->
    sumR m (fun s => pr s * (nth i (e s) 0 * nth j (e s) 0)) = 0 }.

(** The true affine function [w] observed with noise [e]. *)
Definition observed (X : matrix R) (w e : list R) : list R := map2 Rplus (map (affine w) (mrows X)) e.
(** Sum of products of the first [n] entries. *)
Definition pairing (n : nat) (u v : list R) : R := sumR n (fun i => nth i u 0 * nth i v 0).
(** Weighting the targets by [u] gives, without noise, the combination [c] of the true parameters, whatever these are. *)
Definition unbiased (X : matrix R) (c u : list R) : Prop :=
  forall v, length v = S (mcols X) -> pairing (nrows X) u (map (affine v) (mrows X)) = pairing (S (mcols X)) c v.
(** Mean squared deviation of a random number from [a]. *)
Definition spread (m : nat) (pr f : nat -> R) (a : R) : R := sumR m (fun s => pr s * (f s - a) ^ 2).

(** One at position [i], zero elsewhere. *)
Definition indicator (n i : nat) : list R := map (fun j => if (j =? i)%nat then 1 else 0) (seq 0 n).
(** All but element [i]. *)
Definition without {A} (i : nat) (l : list A) : list A := firstn i l ++ skipn (S i) l.
(** All but row [i]. *)
Definition leave_out (i : nat) (X : matrix R) : matrix R := Mat (without i (mrows X)) (mcols X).
