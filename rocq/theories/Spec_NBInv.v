(** * Other ways to write down the same training set for a naive Bayes classifier *)
From Coq Require Import List Arith Bool Reals.
From Verif Require Import Base Num Linalg Spec_Calc Model_NaiveBayes Spec_NaiveBayes.
Import ListNotations.
Local Open Scope R_scope.

(** The classifier [m], trained on [inputs] and [targets], answers [out] to the rows of [M]. *)
Definition answers {P} (D : @Distribution R P) (m : NaiveBayes R P) (inputs targets M out : matrix R) : Prop :=
  exists m', nb_train D m inputs targets = (m', Ok tt) /\ nb_predict D m' M = Ok out.

Definition same_shape (A A' : matrix R) : Prop := mwf A' /\ nrows A' = nrows A /\ mcols A' = mcols A.
(** Column [j] in other units: [a j] times the old value plus [b j]. *)
Definition in_units (a b : nat -> R) (A A' : matrix R) : Prop :=
  same_shape A A' /\ forall i j, (i < nrows A)%nat -> (j < mcols A)%nat -> entry A' i j = a j * entry A i j + b j.
(** The columns in the order [pi]. *)
Definition in_order (pi : list nat) (A A' : matrix R) : Prop :=
  same_shape A A' /\ forall i j, (i < nrows A)%nat -> (j < mcols A)%nat -> entry A' i j = entry A i (nth j pi 0%nat).
(** The columns chosen by [flip] with 0 and 1 exchanged. *)
Definition in_code (flip : nat -> bool) (A A' : matrix R) : Prop :=
  same_shape A A' /\ forall i j, (i < nrows A)%nat -> (j < mcols A)%nat ->
    entry A' i j = if flip j then 1 - entry A i j else entry A i j.

(** One-hot target rows for the classes [cs]. *)
Definition hot_targets (k : nat) (cs : list nat) : matrix R := Mat (map (one_hot k) cs) k.
(** [c] is the only class with the best score. *)
Definition only_best (k : nat) (s : nat -> R) (c : nat) : Prop :=
  (c < k)%nat /\ forall d, (d < k)%nat -> d <> c -> s d < s c.

(** Training rows with a class each, every class used, and rows [M] to classify. *)
Definition classified (inputs targets M : matrix R) (cs : list nat) : Prop :=
  mwf targets /\ nrows targets = nrows inputs /\ labelled targets cs /\
  (forall c, (c < mcols targets)%nat -> In c cs) /\ (0 < mcols targets)%nat /\ mwf M /\ mcols M = mcols inputs.
(** What the Gaussian classifier needs: two different rows per class in every feature. *)
Definition gauss_ready (inputs : matrix R) (cs : list nat) (k : nat) : Prop :=
  (forall c, (c < k)%nat -> (2 <= count_occ Nat.eq_dec cs c)%nat) /\
  forall c j, (c < k)%nat -> (j < mcols inputs)%nat -> 0 < cls_var inputs cs c j.
(** Entries between 0 and [hi]. *)
Definition between (lo hi : R) (A : matrix R) : Prop := forall i j, (i < nrows A)%nat -> (j < mcols A)%nat -> lo <= entry A i j <= hi.
Definition nonneg (A : matrix R) : Prop := forall i j, (i < nrows A)%nat -> (j < mcols A)%nat -> 0 <= entry A i j.
