(** * C06, C07: classification scores ([src/analysis/score.rs]) *)
From Coq Require Import List Arith Bool Reals Lra.
From Verif Require Import Base Num NumX Model_Score Spec_Score Proof_Score.
Import ListNotations.

(** C06: accuracy panics on different lengths, otherwise is the fraction of agreeing positions
    (NaN without samples). *)
Theorem C06_accuracy_value : forall (T : Type) (eqb : T -> T -> bool) (os ts : list T),
  accuracy (F := X) eqb os ts =
  if length os =? length ts then Ok (ratio (count2 eqb os ts) (length os)) else Panic.
Proof. exact @accuracy_spec. Qed.
Print Assumptions C06_accuracy_value.

Theorem C06_accuracy_range : forall (T : Type) (eqb : T -> T -> bool),
  (forall x y, eqb x y = true <-> x = y) -> forall os ts : list T,
  length os = length ts -> os <> [] ->
  exists a, accuracy (F := X) eqb os ts = Ok (Fin a) /\ (0 <= a <= 1)%R /\ (a = 1%R <-> os = ts) /\
    (a = 0%R <-> count2 eqb os ts = 0) /\
    (a * INR (length os) = INR (count2 eqb os ts))%R.
Proof. exact @accuracy_range. Qed.
Print Assumptions C06_accuracy_range.

Theorem C06_row_accuracy : forall os ts : list (list R),
  length os = length ts -> os <> [] ->
  exists a, row_accuracy (map (map Fin) os) (map (map Fin) ts) = Ok (Fin a) /\
    (0 <= a <= 1)%R /\ (a = 1%R <-> os = ts) /\
    (a * INR (length os) = INR (count2 (fun x y => slice_eqb (map Fin x) (map Fin y)) os ts))%R.
Proof. exact row_accuracy_spec. Qed.
Print Assumptions C06_row_accuracy.

(** Rows are compared exactly (also on rows of different width). *)
Theorem C06_rows_compared : forall a b : list R,
  slice_eqb (map Fin a) (map Fin b) = true <-> a = b.
Proof. exact slice_eqb_fin. Qed.
Print Assumptions C06_rows_compared.

(** score.rs lines 26-31: 1 correct of 4. *)
Example C06_ex : accuracy (F := X) Nat.eqb [1;1;1;1] [1;2;0;3] = Ok (ratio 1 4)
  /\ accuracy (F := X) Nat.eqb [] [] = Ok NaN /\ accuracy (F := X) Nat.eqb [1] [1;2] = Panic.
Proof.
  rewrite !C06_accuracy_value. auto.
Qed.

(** C07: precision, recall and F1 on two-class data; panics otherwise. *)
Theorem C07_two_class_scores : forall (T : Type) (eqb : T -> T -> bool),
  (forall x y, eqb x y = true <-> x = y) -> forall zero one : T, zero <> one ->
  forall os ts : list T,
    (length os <> length ts \/ ~ (two_class zero one os /\ two_class zero one ts) ->
       precision (F := X) eqb zero one os ts = Panic /\ recall (F := X) eqb zero one os ts = Panic /\
       f1 (F := X) eqb zero one os ts = Panic) /\
    (length os = length ts -> two_class zero one os -> two_class zero one ts ->
       precision (F := X) eqb zero one os ts = Ok (ratio (TP eqb one os ts) (TP eqb one os ts + FP eqb zero one os ts)) /\
       recall (F := X) eqb zero one os ts = Ok (ratio (TP eqb one os ts) (TP eqb one os ts + FN eqb zero one os ts)) /\
       f1 (F := X) eqb zero one os ts =
         Ok (ratio (2 * TP eqb one os ts) (2 * TP eqb one os ts + FP eqb zero one os ts + FN eqb zero one os ts))).
Proof. exact @two_class_scores. Qed.
Print Assumptions C07_two_class_scores.

(** F1 is the harmonic mean of precision and recall, which are fractions. *)
Theorem C07_f1_harmonic_mean : forall (T : Type) (eqb : T -> T -> bool),
  (forall x y, eqb x y = true <-> x = y) -> forall zero one : T, zero <> one ->
  forall (os ts : list T) (p r : R),
    length os = length ts -> two_class zero one os -> two_class zero one ts ->
    precision (F := X) eqb zero one os ts = Ok (Fin p) -> recall (F := X) eqb zero one os ts = Ok (Fin r) ->
    (p + r <> 0)%R ->
    f1 (F := X) eqb zero one os ts = Ok (Fin (2 * p * r / (p + r))%R) /\
    (0 <= p <= 1)%R /\ (0 <= r <= 1)%R.
Proof. exact @f1_harmonic. Qed.
Print Assumptions C07_f1_harmonic_mean.

(** A two-class sample with all four kinds of outcome: TP=2, FP=1, FN=1 (the repository's unit
    tests). *)
Example C07_ex : two_class 0 1 [1;1;1;0;0] /\ two_class 0 1 [1;1;0;1;0] /\
  TP Nat.eqb 1 [1;1;1;0;0] [1;1;0;1;0] = 2 /\ FP Nat.eqb 0 1 [1;1;1;0;0] [1;1;0;1;0] = 1 /\
  FN Nat.eqb 0 1 [1;1;1;0;0] [1;1;0;1;0] = 1.
Proof. repeat split; auto; unfold two_class; simpl; intuition. Qed.
Example C07_ex_panic : precision (F := X) Nat.eqb 0 1 [2] [1] = Panic.
Proof. reflexivity. Qed.
