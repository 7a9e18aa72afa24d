(** * What naive Bayes training optimises *)
From Coq Require Import List Arith Bool Reals.
From Verif Require Import Base Num Linalg Spec_Calc Spec_NaiveBayes.
Import ListNotations.
Local Open Scope R_scope.

Section Fit.
  (** The training rows and their classes; [k] is the number of classes. *)
  Context (inputs : matrix R) (cs : list nat) (k : nat).
  Let n := nrows inputs.
  Let d := mcols inputs.
  Let cls (i : nat) : nat := nth i cs 0%nat.

  (** Class probabilities, none of them zero. *)
  Definition class_probs (q : nat -> R) : Prop := (forall c, (c < k)%nat -> 0 < q c) /\ sumR k q = 1.

  (** Log-likelihood of rows and classes under class probabilities [q] and feature probabilities [p], every class having been
      seen once more with every feature present and once more with every feature absent. *)
  Definition bern_fit (q : nat -> R) (p : nat -> nat -> R) : R :=
    sumR n (fun i => ln (q (cls i)) + sumR d (fun j => entry inputs i j * ln (p (cls i) j) + (1 - entry inputs i j) * ln (1 - p (cls i) j))) +
    sumR k (fun c => sumR d (fun j => ln (p c j) + ln (1 - p c j))).
  Definition bern_probs (p : nat -> nat -> R) : Prop := forall c j, (c < k)%nat -> (j < d)%nat -> 0 < p c j < 1.

  (** The same for word counts: every class has been seen once more with every word. *)
  Definition mult_fit (q : nat -> R) (p : nat -> nat -> R) : R :=
    sumR n (fun i => ln (q (cls i)) + sumR d (fun j => entry inputs i j * ln (p (cls i) j))) +
    sumR k (fun c => sumR d (fun j => ln (p c j))).
  Definition mult_probs (p : nat -> nat -> R) : Prop :=
    (forall c j, (c < k)%nat -> (j < d)%nat -> 0 < p c j) /\ forall c, (c < k)%nat -> sumR d (p c) = 1.

  (** Log-likelihood under normal distributions with means [mu] and variances [v]. *)
  Definition gauss_lik (q : nat -> R) (mu v : nat -> nat -> R) : R :=
    sumR n (fun i => ln (q (cls i)) + sumR d (fun j => ln (normal_pdf (mu (cls i) j) (v (cls i) j) (entry inputs i j)))).
  (** The same with one degree of freedom less for each class and feature. *)
  Definition gauss_fit_free (q : nat -> R) (mu v : nat -> nat -> R) : R :=
    gauss_lik q mu v + sumR k (fun c => sumR d (fun j => ln (v c j) / 2)).
  Definition variances (v : nat -> nat -> R) : Prop := forall c j, (c < k)%nat -> (j < d)%nat -> 0 < v c j.
End Fit.
