(** * What naive Bayes must compute *)
From Coq Require Import List Arith Bool Reals.
From Verif Require Import Base Num Linalg Spec_Calc.
Import ListNotations.

(** The class of a target row: the first entry equal to 1. *)
Definition is_label {F} {N : Num F} (row : list F) (c : nat) : Prop :=
  c < length row /\ neqb (nth c row nzero) nonev = true /\ forall j, j < c -> neqb (nth j row nzero) nonev = false.
Definition labelled {F} {N : Num F} (targets : matrix F) (cs : list nat) : Prop := Forall2 is_label (mrows targets) cs.

Definition one_hot {F} {N : Num F} (k c : nat) : list F := map (fun j => if j =? c then nonev else nzero) (seq 0 k).
(** [c] has the best of the [k] scores [s] (the first one on ties). *)
Definition is_best {F} {N : Num F} (k : nat) (s : nat -> F) (c : nat) : Prop :=
  c < k /\ (forall i, i < k -> nltb (s c) (s i) = false) /\ (forall i, i < c -> nltb (s i) (s c) = true).

Local Open Scope R_scope.
Section Estimates.
  (** The training rows and their classes. *)
  Context (inputs : matrix R) (cs : list nat).
  Let n := nrows inputs.

  Definition cnt (c : nat) : R := sumR n (fun i => if (nth i cs 0%nat =? c)%nat then 1 else 0).
  Definition csum (c j : nat) : R := sumR n (fun i => if (nth i cs 0%nat =? c)%nat then entry inputs i j else 0).
  Definition prior (c : nat) : R := cnt c / INR n.

  (** Gaussian: mean, sample variance, log-density. *)
  Definition cls_mean (c j : nat) : R := csum c j / cnt c.
  Definition cls_var (c j : nat) : R :=
    sumR n (fun i => if (nth i cs 0%nat =? c)%nat then (entry inputs i j - cls_mean c j) ^ 2 else 0) / (cnt c - 1).
  Definition normal_pdf (mu v x : R) : R := exp (- (x - mu) ^ 2 / (2 * v)) / sqrt (2 * PI * v).
  Definition gauss_ll (c : nat) (x : list R) : R :=
    ln (prior c) + sumR (mcols inputs) (fun j => ln (normal_pdf (cls_mean c j) (cls_var c j) (nth j x 0))).

  (** Bernoulli: probability of feature [j] in class [c], with one pseudo-observation of each value. *)
  Definition bern_p (c j : nat) : R := (csum c j + 1) / (cnt c + 2).
  Definition bern_ll (c : nat) (x : list R) : R :=
    ln (prior c) + sumR (mcols inputs) (fun j => nth j x 0 * ln (bern_p c j) + (1 - nth j x 0) * ln (1 - bern_p c j)).

  (** Multinomial: relative frequency of feature [j] in class [c], one pseudo-count each. *)
  Definition mult_p (c j : nat) : R := (csum c j + 1) / sumR (mcols inputs) (fun j' => csum c j' + 1).
  Definition mult_ll (c : nat) (x : list R) : R :=
    ln (prior c) + sumR (mcols inputs) (fun j => nth j x 0 * ln (mult_p c j)).
End Estimates.
