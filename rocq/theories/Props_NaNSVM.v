(** * C175: one missing value makes a support vector machine answer NaN; C176: NaN in, NaN out *)
From Coq Require Import List Arith Lia Bool.
From Flocq Require Import BinarySingleNaN.
From Verif Require Import Base Num NumF NumFn Linalg Model_Toolkit Model_Regression Model_GLM Model_Kernel Model_GP Model_SVM Model_PCA Model_NNet Spec_SVM Spec_NaN Spec_NaNReg Spec_NaNSVM
  Proof_SigB64Ex Proof_NaNEx Proof_NaNRegEx Proof_NaNSVM Proof_NaNQuery Proof_NaNSVMEx.
Import ListNotations.

(** A training row with NaN: no draw ever changes a coefficient ... *)
Theorem C175_learns_nothing : forall (ker : Kernel B64) k (self self' : SVM B64) (D : matrix B64) y,
  mwf D -> ker_on ker k (S (mcols D)) -> passes_nan k (S (mcols D)) -> length y = nrows D -> outcome (svm_train ker self D y) (Some self') ->
  forall t, t < nrows D -> has_nan (nth t (mrows D) []) -> svm_alpha self' = Some (repeat (ndiv nzero (nofnat (svm_optim_iters self))) (nrows D)).
Proof. exact svm_learns_nothing. Qed.
Print Assumptions C175_learns_nothing.
Example C175_learns_nothing_case : mwf gappy /\ ker_on dot_kernel dot_value (S (mcols gappy)) /\ passes_nan dot_value (S (mcols gappy)) /\ has_nan (nth 1 (mrows gappy) []) /\
  length gappy_y = nrows gappy /\ exists self', outcome (svm_train dot_kernel (svm_new nonev) gappy gappy_y) (Some self').
Proof.
  split; [exact gappy_wf|]. split; [apply dot_kernel_ok|]. split; [apply dot_kernel_ok|]. split; [exact (proj1 (proj2 (proj2 case_gappy)))|]. split; [reflexivity|]. apply svm_runs64; [exact gappy_wf|cbn; lia].
Qed.
(** ... and with NaN in a row or a target every answer is NaN. *)
Theorem C175_answers : forall (ker : Kernel B64) k (self self' : SVM B64) (D : matrix B64) y,
  mwf D -> ker_on ker k (S (mcols D)) -> passes_nan k (S (mcols D)) -> length y = nrows D -> outcome (svm_train ker self D y) (Some self') ->
  forall P, tainted D y -> mwf P -> mcols P = mcols D -> exists out, svm_predict ker self' P = Ok out /\ length out = nrows P /\ all_nan out.
Proof. exact svm_all_nan. Qed.
Print Assumptions C175_answers.
Example C175_answers_case : tainted clean_x missing_y /\ mwf clean_x /\ length missing_y = nrows clean_x /\
  exists self', outcome (svm_train dot_kernel (svm_new nonev) clean_x missing_y) (Some self').
Proof. split; [exact missing_tainted|]. split; [exact clean_wf|]. split; [reflexivity|]. apply svm_runs64; [exact clean_wf|cbn; lia]. Qed.
(** The kernels of the toolkit qualify. *)
Theorem C175_kernels : forall NF : NumFn B64, libm_kernel_nan -> forall (c a d ls : B64) dim, neqb d nzero = false -> neqb (nopp a) nzero = false ->
  forall ker, In ker [k_linear c; k_polynomial a c d; k_squared_exp ls a; k_exponential ls a; k_hyper_tan a c; k_multiquadric c; k_rational_quadratic a ls] ->
  exists k, ker_on ker k dim /\ passes_nan k dim.
Proof. exact @kernels_pass_nan. Qed.
Print Assumptions C175_kernels.
Example C175_kernels_case : @libm_kernel_nan libm_ex /\ neqb (nonev : B64) nzero = false /\ neqb (nopp (nonev : B64)) nzero = false.
Proof. split; [exact libm_ex_kernel_nan|]. split; reflexivity. Qed.

(** C176: the answer to a query row with NaN is NaN. *)
Theorem C176_linear : forall (self : LinRegressor B64) P out, mwf P -> lr_predict self P = Ok out -> nan_rows P out.
Proof. exact lin_query. Qed.
Print Assumptions C176_linear.
Example C176_linear_case : mwf gappy /\ has_nan (nth 1 (mrows gappy) []) /\ exists out, lr_predict lin_ex gappy = Ok out.
Proof. exact (conj gappy_wf (conj (proj1 (proj2 (proj2 case_gappy))) lin_answers)). Qed.
Theorem C176_logistic : forall NF : NumFn B64, libm_nan -> forall (self : LogisticRegressor B64) P out, mwf P -> log_predict self P = Ok out -> nan_rows P out.
Proof. exact @log_query. Qed.
Print Assumptions C176_logistic.
Example C176_logistic_case : @libm_nan libm_ex /\ exists out, @log_predict B64 NumB64 libm_ex log_ex gappy = Ok out.
Proof. exact (conj libm_ex_nan log_answers). Qed.
Theorem C176_glm : forall NF : NumFn B64, libm_nan -> forall (cr : Model_GLM.Criterion B64), In (cr_link cr) [Model_GLM.Identity; Model_GLM.Logit; Model_GLM.Log] ->
  forall (self : GenLinearModel B64) P out, mwf P -> glm_predict cr self P = Ok out -> nan_rows P out.
Proof. exact @glm_query. Qed.
Print Assumptions C176_glm.
Example C176_glm_case : @libm_nan libm_ex /\ exists out, @glm_predict B64 NumB64 (@Poisson B64 NumB64 libm_ex) glm_nan_ex gappy = Ok out.
Proof. exact (conj libm_ex_nan glm_answers). Qed.
Theorem C176_gp : forall (ker : Kernel B64) k mean (self : GaussianProcess B64) T P out, gp_train_data self = Some T -> mwf T -> 0 < nrows T -> mwf P ->
  ker_on ker k (mcols T) -> passes_nan k (mcols T) -> length (mean P) = nrows P -> gp_predict ker mean self P = Ok out -> nan_rows P out.
Proof. exact gp_query. Qed.
Print Assumptions C176_gp.
Example C176_gp_case : mwf clean_x /\ ker_on dot_kernel dot_value (mcols clean_x) /\ passes_nan dot_value (mcols clean_x) /\ exists out, gp_predict dot_kernel (const_mean nzero) gp_nan_ex gappy = Ok out.
Proof. exact (conj clean_wf (conj (proj1 (dot_kernel_ok _)) (conj (proj2 (dot_kernel_ok _)) gp_answers))). Qed.
Theorem C176_svm : forall (ker : Kernel B64) k (self self' : SVM B64) (D : matrix B64) y,
  mwf D -> ker_on ker k (S (mcols D)) -> passes_nan k (S (mcols D)) -> length y = nrows D -> outcome (svm_train ker self D y) (Some self') ->
  forall P, 0 < nrows D -> mwf P -> mcols P = mcols D -> exists out, svm_predict ker self' P = Ok out /\ nan_rows P out.
Proof. exact svm_query. Qed.
Print Assumptions C176_svm.
Example C176_svm_case : mwf clean_x /\ 0 < nrows clean_x /\ mcols gappy = mcols clean_x /\ exists self', outcome (svm_train dot_kernel (svm_new nonev) clean_x [nonev; nonev]) (Some self').
Proof. split; [exact clean_wf|]. split; [cbn; lia|]. split; [reflexivity|]. apply svm_runs64; [exact clean_wf|cbn; lia]. Qed.
Theorem C176_pca : forall (self : PCA B64) P out, mwf P -> pca_predict self P = Ok out -> nan_rows_mat P out.
Proof. exact pca_query. Qed.
Print Assumptions C176_pca.
Example C176_pca_case : exists out, pca_predict pca_nan_ex gappy = Ok out.
Proof. exact pca_answers. Qed.
(** A network built by [mlp], however it was trained. *)
Theorem C176_nnet : forall NF : NumFn B64, libm_nan -> (forall x : B64, nnan x = true -> nnan (ntanh x) = true) -> forall a, In a [Sigmoid; LinearAct; Exp; Tanh] ->
  forall rng x y s c (net0 net : BaseNeuralNet B64), Forall (fun n => 0 < n) (y :: s) -> net_mlp rng (x :: y :: s) c a = Ok net0 ->
  nn_layers net = nn_layers net0 -> forall P out, mwf P -> net_predict net P = Ok out -> nan_rows_mat P out.
Proof. exact @mlp_query. Qed.
Print Assumptions C176_nnet.
Example C176_nnet_case : @libm_nan libm_ex /\ (forall x : B64, nnan x = true -> nnan (@ntanh B64 libm_ex x) = true) /\
  exists net out, net_mlp (fun _ _ => nonev) [1; 2; 1] (@BCECriterion B64 NumB64 libm_ex RegNone) (@Sigmoid B64 NumB64 libm_ex) = Ok net /\ net_predict net gappy = Ok out.
Proof. exact (conj libm_ex_nan (conj libm_ex_tanh mlp_answers)). Qed.
