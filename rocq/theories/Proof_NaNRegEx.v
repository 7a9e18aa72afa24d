(** * Concrete cases for C173 *)
From Coq Require Import List Arith Lia Bool ZArith.
From Flocq Require Import BinarySingleNaN.
From Verif Require Import Base Num NumF NumFn Linalg Proof_SigB64Ex Spec_NaN Proof_NaN Proof_NaNEx Spec_NaNReg Proof_NaNReg.
Import ListNotations.

Definition gappy_y : list B64 := [b64_of_Z 1; b64_of_Z 2; b64_of_Z 3; b64_of_Z 4].
Lemma gappy_tainted : tainted gappy gappy_y.
Proof. exists 1. split; [cbn; lia|]. left. apply case_gappy. Qed.
(** Complete rows, one target missing. *)
Definition clean_x : matrix B64 := Mat [[b64_of_Z 1]; [b64_of_Z 2]] 1.
Definition missing_y : list B64 := [nzero; qnan].
Lemma clean_wf : mwf clean_x.
Proof. repeat constructor. Qed.
Lemma missing_tainted : tainted clean_x missing_y.
Proof. exists 1. split; [cbn; lia|]. right. reflexivity. Qed.
Lemma libm_ex_nan : @libm_nan libm_ex.
Proof. intros x H. destruct x; try discriminate. split; reflexivity. Qed.
