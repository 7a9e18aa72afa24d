(** * C107: the scores agree with the confusion matrix *)
From Coq Require Import List Arith Bool Lia Reals.
From Verif Require Import Base Num NumX Model_Confusion Spec_Confusion Model_Score Spec_Score Spec_Scores2 Proof_Scores2.
Import ListNotations.

Theorem C107_accuracy_is_trace : forall (T : Type) (leb eqb : T -> T -> bool), decides_eq eqb -> total_order leb -> forall (os ts : list T) m,
  confusion_matrix leb eqb os ts None = Ok m -> accuracy (F := X) eqb os ts = Ok (ratio (trace_of m) (total m)).
Proof. exact @accuracy_trace. Qed.
Print Assumptions C107_accuracy_is_trace.
(** The four cells of the two-class table, rows being targets. *)
Theorem C107_two_class_table : forall (T : Type) (leb eqb : T -> T -> bool) (zero one : T), decides_eq eqb -> zero <> one -> forall (os ts : list T) m,
  two_class zero one os -> two_class zero one ts -> confusion_matrix leb eqb os ts (Some [zero; one]) = Ok m ->
  exists tn fp fn tp, m = [[tn; fp]; [fn; tp]] /\ precision (F := X) eqb zero one os ts = Ok (ratio tp (tp + fp)) /\
    recall (F := X) eqb zero one os ts = Ok (ratio tp (tp + fn)) /\ f1 (F := X) eqb zero one os ts = Ok (ratio (2 * tp) (2 * tp + fp + fn)) /\
    accuracy (F := X) eqb os ts = Ok (ratio (tp + tn) (tp + tn + fp + fn)).
Proof. exact @two_class_table. Qed.
Print Assumptions C107_two_class_table.
(** Exchanging predictions and targets transposes the table ... *)
Theorem C107_exchange_table : forall (T : Type) (leb eqb : T -> T -> bool), decides_eq eqb -> total_order leb -> forall (os ts : list T) labels m,
  confusion_matrix leb eqb os ts labels = Ok m -> exists m', confusion_matrix leb eqb ts os labels = Ok m' /\ forall i j, entry m' j i = entry m i j.
Proof. exact @confusion_swap. Qed.
Print Assumptions C107_exchange_table.
(** ... exchanges precision and recall, and keeps accuracy (in any arithmetic) and f1. *)
Theorem C107_exchange_scores : forall (F : Type) (N : Num F) (T : Type) (eqb : T -> T -> bool) (zero one : T) (os ts : list T),
  precision (F := F) eqb zero one os ts = recall (F := F) eqb zero one ts os /\
  (decides_eq eqb -> accuracy (F := F) eqb os ts = accuracy (F := F) eqb ts os).
Proof. exact (fun F N T eqb zero one os ts => conj (precision_recall_swap eqb zero one os ts) (fun H => accuracy_swap eqb H os ts)). Qed.
Print Assumptions C107_exchange_scores.
Theorem C107_exchange_f1 : forall (T : Type) (eqb : T -> T -> bool) (zero one : T), decides_eq eqb -> zero <> one -> forall os ts : list T,
  f1 (F := X) eqb zero one os ts = f1 (F := X) eqb zero one ts os.
Proof. exact @f1_swap. Qed.
Print Assumptions C107_exchange_f1.
Example C107_ex : let os := [1; 1; 0; 0; 1] in let ts := [1; 0; 0; 1; 1] in
  confusion_matrix Nat.leb Nat.eqb os ts None = Ok [[1; 1]; [1; 2]] /\ trace_of [[1; 1]; [1; 2]] = 3 /\ total [[1; 1]; [1; 2]] = 5 /\
  two_class 0 1 os /\ two_class 0 1 ts.
Proof. repeat split; try (unfold two_class; cbn; intuition). Qed.
