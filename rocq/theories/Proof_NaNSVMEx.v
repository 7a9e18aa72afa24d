(** * Concrete cases for C175 and C176 *)
From Coq Require Import List Arith Lia Bool ZArith.
From Flocq Require Import BinarySingleNaN.
From Verif Require Import Base Num NumF NumFn Linalg Model_Toolkit Model_Regression Model_GLM Model_Kernel Model_GP Model_SVM Model_PCA Model_NNet Spec_SVM Proof_SVM Proof_SVM2 Proof_SigB64Ex
  Proof_SVMEx Spec_NaN Proof_NaN Proof_NaNEx Spec_NaNReg Proof_NaNReg Proof_NaNRegEx Spec_NaNSVM Proof_NaNSVM Proof_NaNQuery.
Import ListNotations.

Definition dot_kernel : Kernel B64 := k_linear nzero.
Definition dot_value (x y : list B64) : B64 := nadd (dot x y) nzero.
Lemma dot_kernel_ok dim : ker_on dot_kernel dot_value dim /\ passes_nan dot_value dim.
Proof.
  split; [intros x y _ _; reflexivity|]. intros x y Lx Ly H. apply nan_add. left. exact (dot_nan x y dim Lx Ly H).
Qed.
Lemma svm_runs64 (y : list B64) D : mwf D -> 0 < nrows D <= length y -> exists self', outcome (svm_train dot_kernel (svm_new nonev) D y) (Some self').
Proof.
  intros W L. destruct (outcome_exists (svm_train dot_kernel (svm_new nonev) D y)) as [[s|] Ho]; [eauto|].
  exfalso. exact (svm_no_panic dot_kernel dot_value (svm_new nonev) D y W (proj1 (dot_kernel_ok _)) L Ho).
Qed.
Lemma libm_ex_kernel_nan : @libm_kernel_nan libm_ex.
Proof. intros x H. destruct x; try discriminate. split; [reflexivity|]. split; [reflexivity|]. intros y _. reflexivity. Qed.
Lemma libm_ex_tanh (x : B64) : nnan x = true -> nnan (@ntanh B64 libm_ex x) = true.
Proof. intro H. exact H. Qed.
Lemma gappy_wf : mwf gappy. Proof. exact (proj1 case_gappy). Qed.
Definition lin_ex : LinRegressor B64 := {| lr_parameters := Some [nonev; nonev] |}.
Lemma lin_answers : exists out, lr_predict lin_ex gappy = Ok out.
Proof. eexists. reflexivity. Qed.
Definition log_ex : LogisticRegressor B64 := {| log_parameters := Some [nonev; nonev] |}.
Lemma log_answers : exists out, @log_predict B64 NumB64 libm_ex log_ex gappy = Ok out.
Proof. eexists. reflexivity. Qed.
Definition glm_nan_ex : GenLinearModel B64 := {| glm_parameters := Some [nonev; nonev] |}.
Lemma glm_answers : exists out, @glm_predict B64 NumB64 (@Poisson B64 NumB64 libm_ex) glm_nan_ex gappy = Ok out.
Proof. eexists. reflexivity. Qed.
Definition gp_nan_ex : GaussianProcess B64 :=
  {| gp_noise := nzero; gp_alpha := Some [nonev; nonev]; gp_train_mat := None; gp_train_data := Some clean_x |}.
Lemma gp_answers : exists out, gp_predict dot_kernel (const_mean nzero) gp_nan_ex gappy = Ok out.
Proof. eexists. reflexivity. Qed.
Definition pca_nan_ex : PCA B64 :=
  {| pca_n := Some 1; pca_center := true; pca_n_features := Some 1; pca_centers := Some [nonev]; pca_components := Some (Mat [[nonev]] 1); pca_inv := false |}.
Lemma pca_answers : exists out, pca_predict pca_nan_ex gappy = Ok out.
Proof. eexists. reflexivity. Qed.
Lemma mlp_answers : exists net out, net_mlp (fun _ _ => nonev) [1; 2; 1] (@BCECriterion B64 NumB64 libm_ex RegNone) (@Sigmoid B64 NumB64 libm_ex) = Ok net /\
  net_predict net gappy = Ok out.
Proof. do 2 eexists. split; reflexivity. Qed.
