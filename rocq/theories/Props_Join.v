(** * C188: scores and confusion matrices of joined, relabelled and restricted data ([src/analysis/confusion_matrix.rs], [src/analysis/score.rs]) *)
From Coq Require Import List Arith Bool Reals Lia.
From Verif Require Import Base Num NumX Model_Confusion Spec_Confusion Model_Score Spec_Score Proof_Join.
Import ListNotations.

(** C188: for the same labels the matrix of two batches together is the sum of their matrices. *)
Theorem C188_batches_add : forall (T : Type) (leb eqb : T -> T -> bool), decides_eq eqb -> forall os1 ts1 os2 ts2 labels : list T,
  length os1 = length ts1 -> length os2 = length ts2 -> NoDup labels -> exists m1 m2 m,
    confusion_matrix leb eqb os1 ts1 (Some labels) = Ok m1 /\ confusion_matrix leb eqb os2 ts2 (Some labels) = Ok m2 /\
    confusion_matrix leb eqb (os1 ++ os2) (ts1 ++ ts2) (Some labels) = Ok m /\
    forall i j, i < length labels -> j < length labels -> exists a b, entry m1 i j = Some a /\ entry m2 i j = Some b /\ entry m i j = Some (a + b).
Proof. exact @confusion_join. Qed.
Print Assumptions C188_batches_add.
Example C188_ex_batches : NoDup [0; 1] /\ confusion_matrix Nat.leb Nat.eqb [0; 1; 1] [1; 1; 0] (Some [0; 1]) = Ok [[0; 1]; [1; 1]].
Proof. split; [repeat constructor; cbn; lia|reflexivity]. Qed.

(** C188: an entry depends on its two labels only, not on which other labels are listed and where. *)
Theorem C188_labels_chosen : forall (T : Type) (leb eqb : T -> T -> bool), decides_eq eqb -> forall (os ts labels labels' : list T) m m',
  confusion_matrix leb eqb os ts (Some labels) = Ok m -> confusion_matrix leb eqb os ts (Some labels') = Ok m' ->
  forall i j i' j', i < length labels -> j < length labels -> nth_error labels' i' = nth_error labels i -> nth_error labels' j' = nth_error labels j -> entry m' i' j' = entry m i j.
Proof. exact @confusion_chosen. Qed.
Print Assumptions C188_labels_chosen.
Example C188_ex_labels : confusion_matrix Nat.leb Nat.eqb [0; 1; 2] [1; 1; 2] (Some [0; 1; 2]) = Ok [[0; 0; 0]; [1; 1; 0]; [0; 0; 1]] /\
  confusion_matrix Nat.leb Nat.eqb [0; 1; 2] [1; 1; 2] (Some [2; 1]) = Ok [[1; 0]; [0; 1]].
Proof. split; reflexivity. Qed.

(** C188: the accuracy on two batches together is the mean of their accuracies, weighted by their sizes. *)
Theorem C188_accuracy_pools : forall (T : Type) (eqb : T -> T -> bool), decides_eq eqb -> forall os1 ts1 os2 ts2 : list T,
  length os1 = length ts1 -> length os2 = length ts2 -> os1 <> [] -> os2 <> [] -> exists a1 a2,
    accuracy (F := X) eqb os1 ts1 = Ok (Fin a1) /\ accuracy (F := X) eqb os2 ts2 = Ok (Fin a2) /\
    accuracy (F := X) eqb (os1 ++ os2) (ts1 ++ ts2) = Ok (Fin ((INR (length os1) * a1 + INR (length os2) * a2) / (INR (length os1) + INR (length os2)))).
Proof. exact @accuracy_join. Qed.
Print Assumptions C188_accuracy_pools.

(** C188: renaming the labels changes no score, in any arithmetic ... *)
Theorem C188_scores_renamed : forall (S T : Type) (eqb : S -> S -> bool) (eqb' : T -> T -> bool) (f : S -> T), (forall x y, eqb' (f x) (f y) = eqb x y) ->
  forall (zero one : S) (F : Type) (N : Num F) (os ts : list S),
  accuracy (F := F) eqb' (map f os) (map f ts) = accuracy eqb os ts /\
  precision (F := F) eqb' (f zero) (f one) (map f os) (map f ts) = precision eqb zero one os ts /\
  recall (F := F) eqb' (f zero) (f one) (map f os) (map f ts) = recall eqb zero one os ts /\
  f1 (F := F) eqb' (f zero) (f one) (map f os) (map f ts) = f1 eqb zero one os ts.
Proof.
  exact (fun S T eqb eqb' f H zero one F N os ts => conj (accuracy_relabel eqb eqb' f H os ts) (conj (precision_relabel eqb eqb' f H zero one os ts)
    (conj (recall_relabel eqb eqb' f H zero one os ts) (f1_relabel eqb eqb' f H zero one os ts)))).
Qed.
Print Assumptions C188_scores_renamed.
(** ... nor the confusion matrix; without listed labels if the renaming keeps their order. *)
Theorem C188_matrix_renamed : forall (S T : Type) (leb eqb : S -> S -> bool) (leb' eqb' : T -> T -> bool) (f : S -> T), (forall x y, eqb' (f x) (f y) = eqb x y) ->
  forall os ts labels : list S, confusion_matrix leb' eqb' (map f os) (map f ts) (Some (map f labels)) = confusion_matrix leb eqb os ts (Some labels).
Proof. exact @confusion_relabel. Qed.
Print Assumptions C188_matrix_renamed.
Theorem C188_matrix_renamed_in_order : forall (S T : Type) (leb eqb : S -> S -> bool) (leb' eqb' : T -> T -> bool) (f : S -> T), (forall x y, eqb' (f x) (f y) = eqb x y) ->
  (forall x y, leb' (f x) (f y) = leb x y) -> forall os ts : list S, confusion_matrix leb' eqb' (map f os) (map f ts) None = confusion_matrix leb eqb os ts None.
Proof. exact @confusion_relabel_sorted. Qed.
Print Assumptions C188_matrix_renamed_in_order.
Example C188_ex_renamed : (forall x y, Nat.eqb (S x) (S y) = Nat.eqb x y) /\ (forall x y, Nat.leb (S x) (S y) = Nat.leb x y) /\
  confusion_matrix Nat.leb Nat.eqb (map S [0; 2]) (map S [2; 2]) None = Ok [[0; 0]; [1; 1]].
Proof. repeat split. Qed.
