(** Concrete cases for [Props_Succeeds]. *)
From Coq Require Import List Arith Reals Lra Lia Bool.
From Verif Require Import Base BaseLemmas Num NumFn Linalg LinalgR Spec_Calc Model_Rand Model_Regression Spec_Regression Model_GLM Model_Kernel Spec_Kernel Proof_Kernel Model_GP Spec_GP Model_GMM Spec_GMM Proof_GMM4 Proof_GPEx Spec_Succeeds Proof_Succeeds Proof_Succeeds2 Proof_Oracles.
Import ListNotations.
Local Open Scope R_scope.

(** Two coordinates: the corners of a triangle span the affine functions, points on a line do not. *)
Definition Tri : matrix R := Mat [[0; 0]; [1; 0]; [0; 1]] 2.
Definition Line : matrix R := Mat [[0; 0]; [1; 1]; [2; 2]] 2.
Lemma Tri_wf : mwf Tri. Proof. repeat constructor. Qed.
Lemma Line_wf : mwf Line. Proof. repeat constructor. Qed.
Lemma Tri_spans : spans Tri.
Proof.
  intros q Lq H. destruct q as [|a [|b [|c [|]]]]; try discriminate. pose proof (H [0; 0] ltac:(cbn; auto)) as H0. pose proof (H [1; 0] ltac:(cbn; auto)) as H1. pose proof (H [0; 1] ltac:(cbn; auto)) as H2.
  unfold affine in *. cbn in *. repeat apply (f_equal2 cons); try reflexivity; lra.
Qed.
Lemma Line_spans : ~ spans Line.
Proof.
  intros H. specialize (H [0; 1; -1] eq_refl). assert (E : [0; 1; -1] = repeat 0 3).
  { apply H. intros r [<-|[<-|[<-|[]]]]; unfold affine; cbn; lra. }
  cbn in E. injection E. intros. lra.
Qed.
Lemma lr_ex : (exists m, lr_train solve_any lr_default Tri [1; 5; 2] = (m, Ok tt)) /\ snd (lr_train solve_any lr_default Line [1; 5; 2]) <> Ok tt.
Proof.
  split.
  - pose proof (proj2 (lr_succeeds solve_any lr_default Tri [1; 5; 2] solve_any_exact Tri_wf) (conj eq_refl Tri_spans)) as H. destruct (lr_train _ _ _ _) as [m r]. cbn in H. subst r. eauto.
  - intro H. apply (lr_succeeds solve_any _ Line _ solve_any_exact Line_wf) in H. exact (Line_spans (proj2 H)).
Qed.
Lemma glm_ex : (exists m, glm_train inverse_any Bernoulli glm_new Tri [1; 0; 1] = (m, Ok tt)) /\ snd (glm_train inverse_any Bernoulli glm_new Line [1; 0; 1]) = Panic.
Proof.
  split.
  - pose proof (proj2 (proj1 (glm_succeeds inverse_any Bernoulli glm_new Tri [1; 0; 1] inverse_any_exact Tri_wf (cf_bernoulli _))) (conj eq_refl Tri_spans)) as H. destruct (glm_train _ _ _ _ _) as [m r]. cbn in H. subst r. eauto.
  - apply (proj2 (glm_succeeds inverse_any Bernoulli glm_new Line [1; 0; 1] inverse_any_exact Line_wf (cf_bernoulli _))); [reflexivity|exact Line_spans].
Qed.
Lemma binomial_ex : crate_family 3 (Binomial [2; 5; 1; 7]).
Proof. apply cf_binomial; [cbn; lia|]. intros [|[|[|]]] Hi; cbn; try lra. lia. Qed.
Definition gmm_full : GMM R := gmm_new 2.
Lemma gmm_full_started : well_started gmm_full.
Proof. exact (new_well_started 2 ltac:(discriminate)). Qed.
Lemma gmm_full_iters : (0 < gmm_max_iters gmm_full)%nat.
Proof. apply Nat.ltb_lt. vm_compute. reflexivity. Qed.
Lemma outcome_exists {A} (p : Rnd A) : exists o, outcome p o.
Proof.
  induction p as [a|hi k IH|].
  - exists (Some a). constructor.
  - destruct hi as [|hi]; [exists None; constructor|]. destruct (IH 0%nat) as (o & H). exists o. apply (out_gen _ _ 0); [lia|exact H].
  - exists None. constructor.
Qed.
(** With enough rows there is an outcome, and no outcome is a panic of the sampling. *)
Lemma gmm_outcome X : mwf X -> (2 <= nrows X)%nat -> exists self' r, outcome (gmm_train lup_any gmm_full X) (Some (self', r)).
Proof.
  intros W H2. destruct (outcome_exists (gmm_train lup_any gmm_full X)) as ([(s & r)|] & H); [eauto|]. exfalso.
  apply (proj2 (gmm_succeeds lup_any lup_any_exact gmm_full X gmm_full_started W gmm_full_iters)) in H. cbn in H. lia.
Qed.
Lemma gmm_ex : (exists m, outcome (gmm_train lup_any gmm_full Tri) (Some (m, Ok tt))) /\ (exists m r, outcome (gmm_train lup_any gmm_full Line) (Some (m, r)) /\ r <> Ok tt).
Proof.
  split.
  - destruct (gmm_outcome Tri Tri_wf ltac:(cbn; lia)) as (m & r & H). exists m.
    rewrite <- (proj2 (proj1 (proj1 (gmm_succeeds lup_any lup_any_exact gmm_full Tri gmm_full_started Tri_wf gmm_full_iters) m r H)) (conj (le_S 2 2 (le_n 2)) Tri_spans)). exact H.
  - destruct (gmm_outcome Line Line_wf ltac:(cbn; lia)) as (m & r & H). exists m, r. split; [exact H|]. intro E.
    apply (proj1 (proj1 (gmm_succeeds lup_any lup_any_exact gmm_full Line gmm_full_started Line_wf gmm_full_iters) m r H)) in E. exact (Line_spans (proj2 E)).
Qed.
Lemma gp_trains_ex : exists m, gp_train (k_squared_exp 1 1) (const_mean 1) cholesky_any solve_any solve_any (gp_new (/ 10)) Line [9; 4; 1] = (m, Ok tt).
Proof.
  pose proof (gp_succeeds (k_squared_exp 1 1) se (const_mean 1) cholesky_any solve_any solve_any (gp_new (/ 10)) Line [9; 4; 1] cholesky_any_exact (triangular_any_exact _) (triangular_any_exact _) Line_wf
    (se_is _) (squared_exp_psd _ 1 1 ltac:(lra) ltac:(lra)) (squared_exp_sym 1 1) ltac:(cbn; lra) eq_refl eq_refl) as H.
  destruct (gp_train _ _ _ _ _ _ _ _) as [m r]. cbn in H. subst r. eauto.
Qed.
