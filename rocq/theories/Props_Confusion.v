(** * C01, C02: the confusion matrix ([src/analysis/confusion_matrix.rs]) *)
From Coq Require Import List Arith Bool Sorted Lia.
From Verif Require Import Base Model_Confusion Spec_Confusion Proof_Confusion.
Import ListNotations.

(** C01: without explicit labels the matrix tabulates all samples by the distinct labels in
    ascending order; the entries sum to the number of samples; panics iff lengths differ. *)
Theorem C01_confusion_matrix_counts : forall (T : Type) (leb eqb : T -> T -> bool),
  decides_eq eqb -> total_order leb -> forall preds targets : list T,
  (length preds <> length targets -> confusion_matrix leb eqb preds targets None = Panic) /\
  (length preds = length targets ->
   exists labels m, confusion_matrix leb eqb preds targets None = Ok m /\
     ascending leb labels /\ (forall x, In x labels <-> In x preds \/ In x targets) /\
     tabulates eqb labels targets preds m /\ total m = length targets).
Proof. exact @without_labels. Qed.
Print Assumptions C01_confusion_matrix_counts.

(** The hypotheses are met by the natural numbers, and the doc-comment example
    (confusion_matrix.rs lines 28-38) computes. *)
Example C01_ex_order : decides_eq Nat.eqb /\ total_order Nat.leb.
Proof.
  repeat split; try (apply Nat.eqb_eq); try (intros ->; apply Nat.eqb_refl).
  - intros x y. destruct (Nat.leb_spec x y); auto. right. apply Nat.leb_le. lia.
  - intros x y H1 H2. apply Nat.leb_le in H1, H2. lia.
  - intros x y z H1 H2. apply Nat.leb_le in H1, H2. apply Nat.leb_le. lia.
Qed.
Example C01_ex_doc : confusion_matrix Nat.leb Nat.eqb [0;0;2;2;0;2] [2;0;2;2;0;1] None
  = Ok [[2;0;0];[0;0;1];[1;0;2]].
Proof. reflexivity. Qed.

(** C02: with explicit labels. *)
Theorem C02_confusion_matrix_labels : forall (T : Type) (leb eqb : T -> T -> bool),
  decides_eq eqb -> forall preds targets labels : list T,
  (length preds <> length targets \/ ~ NoDup labels ->
     confusion_matrix leb eqb preds targets (Some labels) = Panic) /\
  (length preds = length targets -> NoDup labels ->
     exists m, confusion_matrix leb eqb preds targets (Some labels) = Ok m /\
               tabulates eqb labels targets preds m).
Proof. exact @with_labels. Qed.
Print Assumptions C02_confusion_matrix_labels.

(** The repository's unit tests lines 105-170. *)
Example C02_ex_perm : confusion_matrix Nat.leb Nat.eqb [0;0;2;2;0;2] [2;0;2;2;0;1] (Some [2;1;0])
  = Ok [[2;0;1];[1;0;0];[0;0;2]].
Proof. reflexivity. Qed.
Example C02_ex_disjoint : confusion_matrix Nat.leb Nat.eqb [0;0;2;2;0;2] [2;0;2;2;3;1] (Some [1;3])
  = Ok [[0;0];[0;0]].
Proof. reflexivity. Qed.
Example C02_ex_dup : confusion_matrix Nat.leb Nat.eqb [0] [2] (Some [1;1]) = Panic.
Proof. reflexivity. Qed.
