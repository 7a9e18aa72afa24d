(** * Concrete cases for mixture models in another frame *)
From Coq Require Import List Arith Lia Bool Reals Lra.
From Verif Require Import Base BaseLemmas Num NumX NumFn Linalg LinalgR Spec_Calc CalcR Model_Rand Model_Optim Model_GMM Spec_GMM Proof_GMM
  Proof_GMM2 Proof_GMM3 Proof_GMM4 Proof_GMM5 Proof_GMMEx Proof_EM2 Spec_GMMFrame Proof_GMMFrame Proof_GMMFrame2.
Import ListNotations.
Local Open Scope R_scope.

(** The data 0, 2 with [c x + e] for every number [x]. *)
Definition scaled (c : R) : nat -> nat -> R := fun _ _ => c.
Lemma scaled_inv c : c <> 0 -> inverses 1 (scaled c) (scaled (/ c)).
Proof. intros Hc a b Ha Hb. replace a with 0%nat by lia. replace b with 0%nat by lia. unfold mprod, delta, scaled. cbn. split; field; auto. Qed.
Lemma scaled_D02 c e : data_in_frame (scaled c) (fun _ => e) D02 = Mat [[e]; [2 * c + e]] 1.
Proof. unfold data_in_frame, in_frame, coord, D02, scaled. cbn. apply (f_equal2 (@Mat R)); [|reflexivity]. apply (f_equal2 cons); [|apply (f_equal2 cons); [|reflexivity]]; (apply (f_equal2 cons); [ring|reflexivity]). Qed.
Lemma covc c e : initialize_covariances gmm2 (Mat [[e]; [2 * c + e]] 1) 1 = Mat [[2 * (c * c)]] 1.
Proof. unfold initialize_covariances. cbn [gmm_cov_option gmm2 gmm_set_max_iters gmm_new]. unfold col_mean, vsum, col, mmap. cbn. apply (f_equal2 (@Mat R)); [|reflexivity]. apply (f_equal2 cons); [|reflexivity]. apply (f_equal2 cons); [field|reflexivity]. Qed.
Definition startc (c e : R) : GMM R := set_start gmm2 (Mat [[e]; [2 * c + e]] 1) [Mat [[2 * (c * c)]] 1; Mat [[2 * (c * c)]] 1].
Lemma lupR_c c : c <> 0 -> exists x, lupR (Mat [[c]] 1) = Ok (c, x) /\ x = Mat [[/ c]] 1.
Proof. intro Hc. unfold lupR. cbn. destruct (Req_EM_T c 0); [contradiction|]. eexists. auto. Qed.
Lemma estepc c e : c <> 0 -> exists W ll, membership_weights lupR (startc c e) (Mat [[e]; [2 * c + e]] 1) = Ok (W, ll).
Proof.
  intro Hc. unfold membership_weights. cbn [startc set_start gmm_covars gmm_means rmap]. destruct (lupR_c (2 * (c * c))) as (x & -> & ->). { intro K. assert (c * c = 0) by lra. apply Rmult_integral in H. tauto. }
  eexists. eexists. cbn. reflexivity.
Qed.
Lemma loopc c e : c <> 0 -> exists self', em_loop lupR 1 (startc c e) (Mat [[e]; [2 * c + e]] 1) = (self', Ok tt).
Proof. intro Hc. destruct (estepc c e Hc) as (W & ll & E). cbn [em_loop]. rewrite E. destruct (nltb _ _); eexists; reflexivity. Qed.
Lemma train_eqc c e : gmm_train lupR gmm2 (data_in_frame (scaled c) (fun _ => e) D02) = RRet (em_loop lupR 1 (startc c e) (Mat [[e]; [2 * c + e]] 1)).
Proof.
  rewrite scaled_D02. unfold gmm_train. change (negb (1 <? nrows (Mat [[e]; [(2 * c + e)%R]] 1))%nat) with false. cbv iota zeta.
  replace (ndiv (nonev (F := R)) (nofnat (nrows (Mat [[e]; [2 * c + e]] 1) - 1))) with 1 by (cbn; field).
  rewrite covc. reflexivity.
Qed.
Lemma trainc c e : c <> 0 -> exists self', outcome (gmm_train lupR gmm2 (data_in_frame (scaled c) (fun _ => e) D02)) (Some (self', Ok tt)).
Proof. intro Hc. destruct (loopc c e Hc) as (self' & E). exists self'. rewrite train_eqc, E. constructor. Qed.
Lemma suits2 c : suits (gmm_cov_option gmm2) 1 (scaled c). Proof. exact I. Qed.
(** A reflection and a shift. *)
Lemma mirror_rigid : forall p q, (p < 1)%nat -> (q < 1)%nat -> sumR 1 (fun c => scaled (-1) p c * scaled (-1) q c) = delta p q.
Proof. intros p q Hp Hq. replace p with 0%nat by lia. replace q with 0%nat by lia. unfold scaled, delta. cbn. ring. Qed.

(** In some unit of measurement the start has log-likelihood 0, the number stored in a new model. *)
Lemma unit_stops : exists c, 0 < c /\ forall self' r, outcome (gmm_train lupR gmm2 (data_in_frame (scaled c) (fun _ => 0) D02)) (Some (self', r)) ->
  r = Ok tt /\ stopped_at_start lupR (data_in_frame (scaled c) (fun _ => 0) D02) gmm2 self'.
Proof.
  destruct loop2 as (s2 & L2).
  destruct (em_round_mixture lupR D02 lupR_sound D02 0 start2 s2 (Ok tt) D02_wf eq_refl ltac:(cbn; lia) ltac:(discriminate) I start2_mixture L2 eq_refl) as (g & W & Hg & _).
  set (ll := log_likelihood D02 start2 g). exists (exp (ll / 2)). set (c := exp (ll / 2)). assert (Pc : 0 < c) by apply exp_pos. split; [exact Pc|].
  intros self' r H. rewrite train_eqc in H. destruct (loopc c 0 ltac:(lra)) as (s' & L'). rewrite L' in H. inversion H; subst self' r. split; [reflexivity|].
  assert (Ic : inverses (mcols D02) (scaled c) (scaled (/ c))) by (apply scaled_inv; lra).
  destruct (start_framed D02 (scaled c) (fun _ => 0) gmm2 [0%nat; 1%nat] I ltac:(cbn; lia) ltac:(repeat constructor; cbn; intuition discriminate) ltac:(repeat constructor) eq_refl) as (Fr & S1 & S2).
  cbv zeta in Fr, S1, S2. rewrite frame_nrows in Fr, S2. change (INR (nrows D02 - 1)) with 1 in *. replace (1 / 1) with 1 in * by field.
  rewrite cov02R in Fr, S1. rewrite scaled_D02 in *. rewrite covc in Fr, S2.
  change (set_start gmm2 _ _) with start2 in Fr at 1. change (set_start gmm2 _ _) with (startc c 0) in Fr. change (starting (Mat [[0]; [2 * c + 0]] 1) gmm2 (startc c 0)) in S2.
  assert (Mc : mixture 1 (startc c 0)).
  { pose proof (start_mixture gmm2 (Mat [[0]; [2 * c + 0]] 1) [0%nat; 1%nat] gmm2_started ltac:(repeat constructor) ltac:(cbn; lia) eq_refl ltac:(repeat constructor)) as H0.
    change (INR (nrows (Mat [[0]; [2 * c + 0]] 1) - 1)) with 1 in H0. replace (1 / 1) with 1 in H0 by field. rewrite covc in H0. exact H0. }
  rewrite <- scaled_D02 in L'.
  destruct (stops_at_start lupR _ D02 (scaled c) (scaled (/ c)) (fun _ => 0) lupR_sound Ic determinant1 lupR_det 0 start2 (startc c 0) g s' Fr start2_mixture Mc ltac:(discriminate) I ltac:(cbn; lia) Hg) as (-> & g' & Hg' & Hl); [|exact L'|].
  - cbn [gmm_log_lik startc set_start gmm2 gmm_set_max_iters gmm_new]. fold ll. unfold scaled. rewrite Rabs_right by lra. unfold c. rewrite ln_exp. change (nrows D02) with 2%nat. cbn. field.
  - split; [exact S2|]. exists g'. split; [exact Hg'|]. rewrite scaled_D02 in Hl. exact Hl.
Qed.
