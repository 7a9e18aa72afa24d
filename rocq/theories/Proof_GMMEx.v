(** * Concrete cases for Gaussian mixture models *)
From Coq Require Import List Arith Lia Bool Reals Lra.
From Verif Require Import Base BaseLemmas Num NumX NumFn Linalg LinalgR Spec_Calc CalcR Model_Rand Model_Optim Model_GP Model_NNet Model_GMM Spec_GMM Proof_GMM
  Proof_GMM2 Proof_GMM3 Proof_GMM4 Proof_GMM5.
Import ListNotations.
Local Open Scope R_scope.

(** A decomposition that knows the 1x1 matrices. *)
Definition lupR (C : matrix R) : res (R * matrix R) :=
  match mrows C with
  | [[c]] => if Req_EM_T c 0 then Panic else Ok (c, Mat [[/ c]] 1)
  | _ => Panic
  end.
Lemma lupR_sound : lup_sound lupR.
Proof.
  intros C d det Ci (WC & RC & CC & HS & HP). unfold lupR. destruct C as [rows c]. cbn [mrows mcols] in *. unfold nrows in RC. cbn [mrows] in RC.
  destruct rows as [|[|x [|]] [|]]; try discriminate. cbn in RC. subst d c. destruct (Req_EM_T x 0) as [|Hx]; [discriminate|]. intros [= <- <-].
  assert (0 < x). { specialize (HP (fun _ => 1)). cbn in HP. lra. }
  split; [assumption|]. split; [repeat constructor|]. split; [reflexivity|]. split; [reflexivity|].
  intros a b Ha Hb. replace a with O by lia. replace b with O by lia. cbn. field. exact Hx.
Qed.
Definition D02 : matrix R := Mat [[0]; [2]] 1.
Lemma D02_wf : mwf D02.
Proof. repeat constructor. Qed.
Definition gmm2 : GMM R := gmm_set_max_iters (gmm_new 2) 1.
Lemma gmm2_started : well_started gmm2.
Proof. exact (new_well_started 2 ltac:(discriminate)). Qed.
Lemma cov02R : initialize_covariances gmm2 D02 1 = Mat [[2]] 1.
Proof. unfold initialize_covariances. cbn [gmm_cov_option gmm2 gmm_set_max_iters gmm_new]. unfold col_mean, vsum, col, mmap. cbn. repeat f_equal. field. Qed.
Definition start2 : GMM R := set_start gmm2 D02 [Mat [[2]] 1; Mat [[2]] 1].
Lemma lupR_2 : lupR (Mat [[2]] 1) = Ok (2, Mat [[/ 2]] 1).
Proof. unfold lupR. cbn. destruct (Req_EM_T 2 0); [lra|reflexivity]. Qed.
Lemma estep2 : exists W ll, membership_weights lupR start2 D02 = Ok (W, ll).
Proof.
  unfold membership_weights. cbn [start2 set_start gmm_covars gmm_means rmap]. rewrite lupR_2. eexists. eexists. cbn. reflexivity.
Qed.
Lemma start2_mixture : mixture 1 start2.
Proof.
  pose proof (start_mixture gmm2 D02 [0%nat; 1%nat] gmm2_started ltac:(repeat constructor) ltac:(cbn; lia) eq_refl ltac:(repeat constructor)) as H.
  change (INR (nrows D02 - 1)) with 1 in H. replace (1 / 1) with 1 in H by field. rewrite cov02R in H. exact H.
Qed.
Lemma loop2 : exists self', em_loop lupR 1 start2 D02 = (self', Ok tt).
Proof. destruct estep2 as (W & ll & E). cbn [em_loop]. rewrite E. destruct (nltb _ _); eexists; reflexivity. Qed.
Lemma train2 : exists self', outcome (gmm_train lupR gmm2 D02) (Some (self', Ok tt)).
Proof.
  destruct loop2 as (self' & E). exists self'. unfold gmm_train. change (negb (1 <? nrows D02)%nat) with false. cbv iota zeta.
  replace (ndiv (nonev (F := R)) (nofnat (nrows D02 - 1))) with 1 by (cbn; field).
  rewrite cov02R. change (gmm_comp_count gmm2) with 2%nat. change (gmm_max_iters gmm2) with 1%nat. change (reservoir_sample (seq 0 (nrows D02)) 2) with (RRet [0%nat; 1%nat]).
  cbn [rnd_bind rows_opt D02 mrows nth_error rnd_opt]. change (outcome (RRet (em_loop lupR 1 start2 D02)) (Some (self', Ok tt))). rewrite E. constructor.
Qed.
Lemma predict2 : exists P, gmm_predict lupR start2 D02 = Ok P.
Proof. destruct estep2 as (W & ll & E). exists W. unfold gmm_predict. cbn [gmm_means gmm_covars start2 set_start]. fold start2. rewrite E. reflexivity. Qed.
(** A column of ones beside the data; two rows of three columns. *)
Definition D1c : matrix R := Mat [[0; 1]; [2; 1]; [5; 1]] 2.
Definition D23 : matrix R := Mat [[0; 1; 4]; [2; 1; 7]] 3.
Lemma train1c : exists self' r, outcome (gmm_train lupR (gmm_new 3) D1c) (Some (self', r)).
Proof.
  eexists. eexists. unfold gmm_train. change (negb (1 <? nrows D1c)%nat) with false. cbv iota zeta. change (gmm_comp_count (gmm_new (F := R) 3)) with 3%nat.
  change (reservoir_sample (seq 0 (nrows D1c)) 3) with (RRet [0; 1; 2]%nat). cbn [rnd_bind rows_opt D1c mrows nth_error rnd_opt].
  rewrite (surjective_pairing (em_loop _ _ _ _)). constructor.
Qed.
Lemma train23 : exists self' r, outcome (gmm_train lupR (gmm_new 2) D23) (Some (self', r)).
Proof.
  eexists. eexists. unfold gmm_train. change (negb (1 <? nrows D23)%nat) with false. cbv iota zeta. change (gmm_comp_count (gmm_new (F := R) 2)) with 2%nat.
  change (reservoir_sample (seq 0 (nrows D23)) 2) with (RRet [0; 1]%nat). cbn [rnd_bind rows_opt D23 mrows nth_error rnd_opt].
  rewrite (surjective_pairing (em_loop _ _ _ _)). constructor.
Qed.
Lemma const1c : constant_column D1c 1.
Proof. split; [cbn; lia|]. exists 1. intros i Hi. destruct i as [|[|[|i]]]; try reflexivity. cbn in Hi. lia. Qed.
