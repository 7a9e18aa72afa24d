From Coq Require Import List Arith Lia Bool Reals Lra.
From Verif Require Import Base BaseLemmas Num NumX NumFn NumSign Proof_Toolkit Linalg LinalgR MatR CalcR Model_Optim Model_Regression Model_Kernel Model_GP Proof_Optim Proof_Standardize Model_SVM Spec_SVM Proof_SVM Proof_SVM2.
Import ListNotations.
Local Open Scope R_scope.

(** A kernel without the exponential: the constant 1 (also [k_polynomial] of degree 0). *)
Definition kone : Kernel X := fun _ _ => Ok (Fin 1).
Lemma kone_finite dim : finite_kernel kone (fun _ _ => 1) dim.
Proof. intros x y _ _. reflexivity. Qed.
Definition svm_cfg (iters : nat) : SVM X :=
  {| svm_alpha := None; svm_train_inputs := None; svm_train_targets := None; svm_lambda := Fin 1; svm_optim_iters := iters |}.
Definition SD : matrix X := Mat [[Fin 0]; [Fin 3]] 1.
Lemma SD_wf : mwf SD. Proof. repeat constructor. Qed.

Lemma outcome_exists {A} (p : Rnd A) : (exists o, outcome p o).
Proof.
  induction p as [a|hi k IH|].
  - exists (Some a). constructor.
  - destruct hi as [|hi]; [exists None; constructor|]. destruct (IH 0%nat) as [o Ho]. exists o. apply (out_gen _ _ 0%nat); [lia|auto].
  - exists None. constructor.
Qed.
Lemma svm_runs (ker : Kernel X) k (self : SVM X) D y : mwf D -> finite_kernel ker k (S (mcols D)) -> (0 < nrows D <= length y)%nat ->
  exists self', outcome (svm_train ker self D y) (Some self').
Proof.
  intros W Hk L. destruct (outcome_exists (svm_train ker self D y)) as [[s|] Ho]; [eauto|].
  exfalso. exact (svm_no_panic ker (fun u v => Fin (k u v)) self D y W Hk L Ho).
Qed.
Lemma svm_ex iters y : (2 <= length y)%nat -> exists self', outcome (svm_train kone (svm_cfg iters) SD y) (Some self').
Proof. intros Hy. apply (svm_runs kone (fun _ _ => 1)); [exact SD_wf|apply kone_finite|cbn; lia]. Qed.

(** No iterations: 0/0. *)
Lemma svm_zero_iters (self' : SVM X) : outcome (svm_train kone (svm_cfg 0) SD [Fin 1; Fin (-1)]) (Some self') ->
  svm_alpha self' = Some [NaN; NaN] /\ svm_predict kone self' SD = Ok [NaN; NaN].
Proof.
  intros H. unfold svm_train in H. cbn [svm_optim_iters svm_cfg rnd_for rnd_bind] in H. inversion H; subst. clear H.
  cbn [nrows SD mrows length repeat map nofnat NumXI nzero ndiv INR xdiv].
  assert (E : (if Req_EM_T 0 0 then sgn_inf 0 else Fin (0 / 0)) = NaN).
  { destruct (Req_EM_T 0 0); [|contradiction]. unfold sgn_inf. destruct (Rlt_dec 0 0); [lra|]. reflexivity. }
  rewrite E. split; [reflexivity|]. unfold svm_predict. cbn [svm_alpha svm_train_inputs svm_train_targets svm_lambda svm_cfg].
  cbn. unfold rmat_vec, rassert. cbn. unfold mat_vec, dot, vsum. cbn. reflexivity.
Qed.

(** One row with target 1 and kernel value 1, two steps: the code never counts the row, the Pegasos rule counts it twice. *)
Definition S1 : matrix X := Mat [[Fin 0]] 1.
Lemma S1_wf : mwf S1. Proof. repeat constructor. Qed.
Lemma svm_not_pegasos (self' : SVM X) draws : outcome (svm_train kone (svm_cfg 2) S1 [Fin 1]) (Some self') ->
  length draws = 2%nat -> Forall (fun i => (i < 1)%nat) draws ->
  svm_alpha self' = Some [Fin 0] /\ pegasos (fun _ _ => 1) 1 [[1; 0]] [1] 1 draws (fun _ => 0%nat) 0%nat = 2%nat.
Proof.
  intros H Ld Fd. split.
  - assert (H' : outcome (svm_train kone (svm_cfg 2) S1 (map Fin [1])) (Some self')) by exact H.
    destruct (svm_share kone (fun _ _ => 1) (svm_cfg 2) self' S1 [1] 1 S1_wf (kone_finite _) eq_refl ltac:(lra) eq_refl ltac:(cbn; lia) H') as (dr & _ & _ & E & _).
    destruct (svm_ignored kone (fun _ _ => 1) (svm_cfg 2) self' S1 [1] 1 S1_wf (kone_finite _) eq_refl ltac:(lra) eq_refl ltac:(cbn; lia) 0%nat H' ltac:(cbn; lia)) as (a & E' & Z).
    { cbn [nrows S1 mrows length sumR nth svm_cfg svm_optim_iters Nat.sub INR]. lra. }
    pose proof E' as E2. rewrite E in E2. cbn [nrows S1 mrows length seq map] in E2. rewrite E'. destruct a as [|v [|]]; try discriminate.
    cbn [nth] in Z. subst v. reflexivity.
  - destruct draws as [|d0 [|d1 [|]]]; try discriminate. inversion Fd as [|? ? H0 F1]; subst. inversion F1 as [|? ? H1 _]; subst.
    assert (d0 = 0%nat) by lia. assert (d1 = 0%nat) by lia. subst. cbn [pegasos length sumR nth Nat.eqb INR].
    destruct (Rlt_dec (1 / (1 * 1) * (0 + 0 * 1 * 1)) 1) as [_|N]; [|exfalso; apply N; lra].
    destruct (Rlt_dec _ 1) as [_|N]; [reflexivity|exfalso]. apply N. cbn [Nat.eqb INR]. lra.
Qed.
