(** * A concrete training set *)
From Coq Require Import List Arith Lia Bool Reals Lra.
From Verif Require Import Base BaseLemmas Num Linalg Spec_Calc Spec_NaiveBayes.
Import ListNotations.
Local Open Scope R_scope.

Definition ex_inputs : matrix R := Mat [[0]; [1]; [0]; [1]] 1.
Definition ex_targets : matrix R := Mat [[1; 0]; [1; 0]; [0; 1]; [0; 1]] 2.
Definition ex_cs : list nat := [0; 0; 1; 1]%nat.
Lemma ex_label0 : is_label [1; 0] 0.
Proof. split; [cbn; lia|]. split; [|intros; lia]. cbn. destruct (Req_EM_T 1 1) as [_|Q]; [reflexivity|now destruct Q]. Qed.
Lemma ex_label1 : is_label [0; 1] 1.
Proof.
  split; [cbn; lia|]. split; [cbn; destruct (Req_EM_T 1 1) as [_|Q]; [reflexivity|now destruct Q]|].
  intros [|j] Hj; [|lia]. cbn. destruct (Req_EM_T 0 1); auto. exfalso; lra.
Qed.
Lemma ex_labelled : labelled ex_targets ex_cs.
Proof. repeat constructor; auto using ex_label0, ex_label1; try apply ex_label0; try apply ex_label1. Qed.
Lemma ex_var c : (c < 2)%nat -> cls_var ex_inputs ex_cs c 0 = 1 / 2.
Proof.
  intros Hc. destruct c as [|[|c]]; [| |lia]; unfold cls_var, cls_mean, csum, cnt; cbn; lra.
Qed.
Lemma ex_range i j : (i < nrows ex_inputs)%nat -> (j < mcols ex_inputs)%nat -> 0 <= entry ex_inputs i j <= 1.
Proof.
  intros Hi Hj. cbn in Hi, Hj. destruct j; [|lia]. destruct i as [|[|[|[|i]]]]; [..|lia]; unfold entry; cbn; lra.
Qed.
