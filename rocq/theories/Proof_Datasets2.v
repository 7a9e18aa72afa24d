(** * The bundled data sets in binary64, and models that can be trained on them *)
From Coq Require Import List Arith Lia Bool ZArith Reals Lra.
From Flocq Require Import Core IEEE754.BinarySingleNaN.
From Verif Require Import Base BaseLemmas Num NumFn NumF B64Lemmas Linalg Model_Datasets Spec_Datasets Spec_B64 Model_Optim Model_Regression Model_GLM Spec_Regression Spec_Separable Spec_Succeeds
  Proof_ScoreB64 Proof_ErrB64 Proof_Datasets Proof_Succeeds Proof_Oracles Proof_Separable.
Import ListNotations.
Local Open Scope R_scope.

Lemma literal_b64 k : exact_count k -> is_real (@tenths B64 NumB64 k) (nearest (INR k / 10)).
Proof.
  intros H. unfold tenths. destruct (nofnat_real k H) as [F1 V1]. destruct (nofnat_real 10 ltac:(unfold exact_count; cbn; lia)) as [F2 V2].
  replace (INR 10) with 10 in V2 by (cbn; lra). change (nearest (INR k / 10)) with (rnd64 (INR k / 10)). rewrite <- V1, <- V2.
  apply op_finite; [apply div_rounds; auto; lra|]. rewrite V1, V2. apply Rle_lt_trans with (B2R (@nofnat B64 NumB64 k)).
  - rewrite <- (rnd64_B2R (@nofnat B64 NumB64 k)). rewrite V1. pose proof (pos_INR k). assert (0 <= rnd64 (INR k / 10)) by (rewrite <- rnd64_0; apply rnd64_le; lra).
    rewrite Rabs_right by lra. apply rnd64_le. lra.
  - pose proof (abs_B2R_lt_emax 53 1024 (@nofnat B64 NumB64 k)) as Q. fold top64 in Q. apply Rabs_def2 in Q. lra.
Qed.
Definition numbers : list nat := concat iris_table ++ map fst trees_table ++ map snd trees_table ++ trees_volume.
Lemma numbers_exact k : In k numbers -> exact_count k.
Proof.
  assert (Q : forallb (fun k => (k <=? 1000)%nat) numbers = true) by (vm_compute; reflexivity). rewrite forallb_forall in Q. intros H. specialize (Q k H).
  apply Nat.leb_le in Q. unfold exact_count. lia.
Qed.
Theorem literals k : In k (concat iris_table ++ map fst trees_table ++ trees_volume) -> is_real (@tenths B64 NumB64 k) (nearest (INR k / 10)).
Proof.
  intros H. apply literal_b64, numbers_exact. unfold numbers. rewrite !in_app_iff in *. tauto.
Qed.

Theorem data_trains : (forall solve (self : LinRegressor R), solver_exact solve -> snd (lr_train solve self trees_X (ds_target trees_load)) = Ok tt) /\
  (forall solve (self : LinRegressor R) y, solver_exact solve -> length y = 150%nat -> snd (lr_train solve self iris_X y) = Ok tt) /\
  (forall inverse cr (self : GenLinearModel R) y, inverse_exact inverse -> crate_family 150 cr -> length y = 150%nat -> snd (glm_train inverse cr self iris_X y) = Ok tt).
Proof.
  destruct (@iris_shape R NumR) as (W & Nr & _). fold iris_X in *. destruct (@trees_shape R NumR) as (W2 & Nr2 & _ & L2). fold trees_X in *. split; [|split].
  - intros solve self S. apply (lr_succeeds solve self trees_X _ S W2). split; [now rewrite Nr2|apply trees_spans].
  - intros solve self y S L. apply (lr_succeeds solve self iris_X y S W). split; [now rewrite Nr|apply iris_spans].
  - intros inverse cr self y I C L. rewrite <- Nr in C. apply (glm_succeeds inverse cr self iris_X y I W C). split; [now rewrite Nr|apply iris_spans].
Qed.

Definition iris_gd : GradientDesc R := {| gd_alpha := 1 / 32; gd_iters := Z.to_nat 1030000 |}.
Lemma iris_gd_ok : / 10 ^ 12 <= gd_alpha iris_gd <= 1 / 32 /\ 32100 < gd_alpha iris_gd * INR (gd_iters iris_gd).
Proof.
  cbn [gd_alpha gd_iters iris_gd]. rewrite INR_IZR_INZ, Z2Nat.id by lia. split; [|lra]. split; [|lra]. assert (32 <= 10 ^ 12) by (cbn; lra).
  assert (/ 10 ^ 12 <= / 32) by (apply Rinv_le_contravar; lra). lra.
Qed.
Lemma iris12_case : exists out, log_predict {| log_parameters := Some [0; 1; 2; 3; 4] |} iris_X12 = Ok out.
Proof.
  destruct iris12_shape as (W & _ & Nc & _). unfold log_predict. cbn [log_parameters]. rewrite Proof_Regression.rmat_vec_eq by (cbn; reflexivity). cbn [rbind]. eauto.
Qed.
