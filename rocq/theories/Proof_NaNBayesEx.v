(** * Concrete cases for C168 *)
From Coq Require Import List Arith Lia Bool ZArith.
From Flocq Require Import BinarySingleNaN.
From Verif Require Import Base Num NumF NumFn Linalg Model_KMeans Model_NaiveBayes Spec_NaiveBayes Proof_SigB64Ex Spec_NaN Proof_NaN Proof_NaNEx Proof_NaNBayes.
Import ListNotations.

(** The rows of [gappy] are of class 1, 1, 0, 0. *)
Definition gappy_targets : matrix B64 := Mat [[nzero; nonev]; [nzero; nonev]; [nonev; nzero]; [nonev; nzero]] 2.
Definition gappy_classes : list nat := [1; 1; 0; 0].
Lemma case_bayes : mwf gappy /\ mwf gappy_targets /\ nrows gappy_targets = nrows gappy /\ labelled gappy_targets gappy_classes /\
  (forall c, In c gappy_classes -> 2 <= length (class_rows gappy_classes c)) /\ has_nan (nth 1 (mrows gappy) []) /\ nth 1 gappy_classes 0 = 1 /\ @ln_nan libm_ex.
Proof.
  split; [apply case_gappy|]. split; [repeat constructor|]. split; [reflexivity|]. split.
  - assert (A : is_label [nzero; nonev : B64] 1) by (split; [cbn; lia|]; split; [vm_compute; reflexivity|]; intros [|j] Hj; [vm_compute; reflexivity|lia]).
    assert (B : is_label [nonev; nzero : B64] 0) by (split; [cbn; lia|]; split; [vm_compute; reflexivity|]; intros j Hj; lia).
    unfold labelled. exact (Forall2_cons _ _ A (Forall2_cons _ _ A (Forall2_cons _ _ B (Forall2_cons _ _ B (Forall2_nil _))))).
  - split; [intros c [<-|[<-|[<-|[<-|[]]]]]; cbn; lia|]. split; [apply case_gappy|]. split; [reflexivity|].
    intros x H. destruct x; try discriminate. reflexivity.
Qed.
