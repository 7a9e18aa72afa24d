(** * Concrete cases for preprocessing *)
From Coq Require Import List Arith Reals Lra Lia Bool.
From Verif Require Import Base BaseLemmas Num NumX NumFn Linalg LinalgR Spec_Calc CalcR Spec_Regression Model_Regression Proof_Regression Proof_RegressionEx Model_Transforms Spec_Transforms Proof_MinMax Proof_Standardize Proof_TransformsEx.
From Verif Require Import Spec_Equiv Proof_Equiv Proof_EquivEx Model_PCA Spec_Pipeline Proof_Pipeline.
From Verif Require Spec_PCA Proof_PCA Proof_PCAEx Proof_NBInvEx.
Import ListNotations.
Local Open Scope R_scope.

Lemma celsius_varies : forall j, (j < mcols celsius)%nat -> varies celsius j.
Proof. intros [|j] Hj; [|cbn in Hj; lia]. exists 0%nat, 1%nat. unfold nrows, entry. cbn. repeat split; try lia. lra. Qed.
Lemma celsius_range : in_f64_range celsius.
Proof.
  intros i j Hi Hj. cbn in Hi, Hj. unfold nrows in Hi. cbn in Hi. destruct exm_ok as (_ & RG & _).
  assert (B : 10 <= f64_max_R). { specialize (RG 0%nat 1%nat). unfold nrows, entry in RG. cbn in RG. apply RG; lia. }
  destruct j as [|j]; [|lia]. destruct i as [|[|[|i]]]; unfold entry; cbn; try lia; lra.
Qed.
Lemma celsius_scaled : exists tr, fitted_scaling celsius tr.
Proof.
  destruct (minmax_range 0 1 celsius ltac:(lra) celsius_wf celsius_range ltac:(cbn; unfold nrows; cbn; lia) celsius_varies) as (sc & m' & E & _).
  eexists. eapply (fs_minmax celsius 0 1 sc); [lra|exact celsius_range|unfold nrows; cbn; lia|exact E].
Qed.
Lemma celsius_standardized : exists tr, fitted_scaling celsius tr.
Proof.
  destruct (standardize_spec 0 1 celsius celsius_wf ltac:(unfold nrows; cbn; lia) celsius_varies) as (st & m' & E & _).
  eexists. eapply (fs_standardizer celsius 0 1 st); [lra|unfold nrows; cbn; lia|exact celsius_varies|exact E].
Qed.
Lemma any_units_train a b y1 y2 y3 : a <> 0 -> exists m, lr_train cramer2 lr_default (map_rows (new_units [(a, b)]) 1 celsius) [y1; y2; y3] = (m, Ok tt).
Proof.
  intros Ha. eexists; unfold lr_train, rmat_vec, rassert; cbn; destruct (Req_EM_T _ _) as [E|E]; [exfalso|reflexivity].
  apply Ha. apply Rsqr_0_uniq. unfold Rsqr. lra.
Qed.
Lemma celsius_pipeline tr : fitted_scaling celsius tr -> exists A' Z' m m', mcols (Mat [[10]; [3]] 1) = mcols celsius /\ tr celsius = Ok (inj A') /\ tr (Mat [[10]; [3]] 1) = Ok (inj Z') /\ Forall (determined celsius) (mrows (Mat [[10]; [3]] 1)) /\
  lr_train cramer2 lr_default celsius [5; 6; 8] = (m, Ok tt) /\ lr_train cramer2 lr_default A' [5; 6; 8] = (m', Ok tt).
Proof.
  intros H. destruct (scaling_units celsius tr celsius_wf H) as (ab & L & F & E). destruct ab as [|[a b] [|? ?]]; try discriminate L. inversion F as [|? ? Ha _]; subst. cbn in Ha.
  destruct (celsius_train 5 6 8) as (m & T). destruct (any_units_train a b 5 6 8 Ha) as (m' & T').
  exists (map_rows (new_units [(a, b)]) 1 celsius), (map_rows (new_units [(a, b)]) 1 (Mat [[10]; [3]] 1)), m, m'. split; [reflexivity|].
  split; [apply (E celsius celsius_wf eq_refl)|]. split; [apply (E (Mat [[10]; [3]] 1)); [repeat constructor|reflexivity]|]. split; [exact celsius_determined|]. split; [exact T|exact T'].
Qed.
Lemma nb_scaled : exists tr, fitted_scaling Proof_NBInvEx.nbx tr /\ mwf Proof_NBInvEx.nbx.
Proof.
  assert (W : mwf Proof_NBInvEx.nbx) by repeat constructor.
  assert (V : forall j, (j < mcols Proof_NBInvEx.nbx)%nat -> varies Proof_NBInvEx.nbx j).
  { intros [|[|j]] Hj; [exists 0%nat, 2%nat|exists 0%nat, 1%nat|cbn in Hj; lia]; unfold nrows, entry; cbn; repeat split; try lia; lra. }
  destruct (standardize_spec 0 1 Proof_NBInvEx.nbx W ltac:(unfold nrows; cbn; lia) V) as (st & m' & E & _).
  eexists. split; [|exact W]. eapply (fs_standardizer Proof_NBInvEx.nbx 0 1 st); [lra|unfold nrows; cbn; lia|exact V|exact E].
Qed.
Lemma A3_full : full_pca Proof_PCAEx.svd_ex (pca_new 3 false) Proof_PCAEx.A3 Proof_PCAEx.after_A3.
Proof.
  split; [exact Proof_PCAEx.svd_ex_sound|]. split; [exact (proj1 Proof_PCAEx.wf_ex)|]. split; [cbn; lia|]. split; [exact (Nat.lt_irrefl 3)|]. split; [reflexivity|]. split; [reflexivity|]. exact Proof_PCAEx.train_A3.
Qed.
