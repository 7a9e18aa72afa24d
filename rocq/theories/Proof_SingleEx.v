(** * Concrete cases for [Props_Single] *)
From Coq Require Import List Arith Lia Bool Reals Lra.
From Verif Require Import Base BaseLemmas Num NumX NumF NumFn Linalg LinalgR Spec_Calc CalcR Model_Rand Model_KMeans Model_Optim Model_GMM Spec_GMM Proof_GMM
  Proof_GMM2 Proof_GMM3 Proof_GMM4 Proof_GMM5 Proof_GMMEx Spec_Single Proof_Single.
Import ListNotations.
Local Open Scope R_scope.

Definition gmm1 : GMM R := gmm_set_max_iters (gmm_new 1) 1.
Lemma gmm1_started : well_started gmm1.
Proof. exact (new_well_started 1 ltac:(discriminate)). Qed.
Lemma cov021 : initialize_covariances gmm1 D02 1 = Mat [[2]] 1.
Proof. exact cov02R. Qed.
Definition start1 : GMM R := set_start gmm1 (Mat [[0]] 1) [Mat [[2]] 1].
Lemma estep1 : exists W ll, membership_weights lupR start1 D02 = Ok (W, ll).
Proof. unfold membership_weights. cbn [start1 set_start gmm_covars gmm_means rmap]. rewrite lupR_2. eexists. eexists. cbn. reflexivity. Qed.
Lemma loop1 : exists self', em_loop lupR 1 start1 D02 = (self', Ok tt).
Proof. destruct estep1 as (W & ll & E). cbn [em_loop]. rewrite E. destruct (nltb _ _); eexists; reflexivity. Qed.
Lemma train1 : exists self', outcome (gmm_train lupR gmm1 D02) (Some (self', Ok tt)).
Proof.
  destruct loop1 as (self' & E). exists self'. unfold gmm_train. change (negb (1 <? nrows D02)%nat) with false. cbv iota zeta.
  replace (ndiv (nonev (F := R)) (nofnat (nrows D02 - 1))) with 1 by (cbn; field).
  rewrite cov021. change (gmm_comp_count gmm1) with 1%nat. change (gmm_max_iters gmm1) with 1%nat.
  cbn. apply (out_gen _ _ 1%nat); [lia|]. cbn.
  change (outcome (RRet (em_loop lupR 1 start1 D02)) (Some (self', Ok tt))). rewrite E. constructor.
Qed.
Lemma start1_mixture : mixture 1 start1.
Proof.
  pose proof (start_mixture gmm1 D02 [0%nat] gmm1_started ltac:(repeat constructor) ltac:(cbn; lia) eq_refl ltac:(repeat constructor)) as H.
  change (INR (nrows D02 - 1)) with 1 in H. replace (1 / 1) with 1 in H by field. rewrite cov021 in H. exact H.
Qed.
Lemma predict1 : exists P, gmm_predict lupR start1 D02 = Ok P.
Proof. destruct estep1 as (W & ll & E). exists W. unfold gmm_predict. cbn [gmm_means gmm_covars start1 set_start]. fold start1. rewrite E. reflexivity. Qed.
