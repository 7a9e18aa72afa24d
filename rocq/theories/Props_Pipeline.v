(** * C136, C137: preprocessing before training ([src/data/transforms], [src/learning/pca.rs], and the models behind them) *)
From Coq Require Import List Arith Reals Lia.
From Verif Require Import Base Num NumX NumFn Linalg Spec_Regression Model_Regression Proof_RegressionEx Model_GLM Spec_GLM Model_NaiveBayes Spec_NaiveBayes Spec_NBInv Proof_NBInvEx Spec_Transforms
  Model_Kernel Model_SVM Model_GP Model_KMeans Model_KNN Model_History Model_DBSCAN Model_PCA Spec_DBSCAN2 Spec_KMInv Spec_KerInv Spec_Pipeline.
From Verif Require Spec_Equiv Proof_EquivEx Proof_PCAEx.
From Verif Require Import Proof_Pipeline Proof_Pipeline2 Proof_PipelineEx.
Import ListNotations.
Local Open Scope R_scope.

(** C136: a scaler fitted to the training rows accepts every row of their width and answers with finite rows. *)
Theorem C136_scaling_total : forall A tr, mwf A -> fitted_scaling A tr -> forall n, mwf n -> mcols n = mcols A ->
  exists n', tr n = Ok (inj n') /\ mwf n' /\ nrows n' = nrows n /\ mcols n' = mcols n.
Proof. exact scaling_total. Qed.
Print Assumptions C136_scaling_total.
Example C136_total_ex : mwf Proof_EquivEx.celsius /\ exists tr, fitted_scaling Proof_EquivEx.celsius tr.
Proof. exact (conj Proof_EquivEx.celsius_wf celsius_scaled). Qed.
(** Linear regression after scaling predicts what it predicts without. *)
Theorem C136_linreg : forall solve solve' s s' A tr y Z A' Z' m m', solver_sound solve -> solver_sound solve' -> mwf A -> mwf Z -> mcols Z = mcols A ->
  fitted_scaling A tr -> tr A = Ok (inj A') -> tr Z = Ok (inj Z') -> Forall (Spec_Equiv.determined A) (mrows Z) ->
  lr_train solve s A y = (m, Ok tt) -> lr_train solve' s' A' y = (m', Ok tt) ->
  exists out, lr_predict m Z = Ok out /\ lr_predict m' Z' = Ok out.
Proof. exact scaled_linreg. Qed.
Print Assumptions C136_linreg.
Example C136_linreg_ex : solver_sound cramer2 /\ (exists tr, fitted_scaling Proof_EquivEx.celsius tr) /\ forall tr, fitted_scaling Proof_EquivEx.celsius tr ->
  exists A' Z' m m', mcols (Mat [[10]; [3]] 1) = mcols Proof_EquivEx.celsius /\ tr Proof_EquivEx.celsius = Ok (inj A') /\ tr (Mat [[10]; [3]] 1) = Ok (inj Z') /\
    Forall (Spec_Equiv.determined Proof_EquivEx.celsius) (mrows (Mat [[10]; [3]] 1)) /\
    lr_train cramer2 lr_default Proof_EquivEx.celsius [5; 6; 8] = (m, Ok tt) /\ lr_train cramer2 lr_default A' [5; 6; 8] = (m', Ok tt).
Proof. exact (conj cramer2_sound (conj celsius_standardized celsius_pipeline)). Qed.
(** So does the generalised linear model for a normal response. *)
Theorem C136_glm : forall inverse inverse' s s' A tr y Z A' Z' m m', inverse_sound inverse -> inverse_sound inverse' -> mwf A -> mwf Z -> mcols Z = mcols A ->
  fitted_scaling A tr -> tr A = Ok (inj A') -> tr Z = Ok (inj Z') -> Forall (Spec_Equiv.determined A) (mrows Z) ->
  glm_train inverse Normal s A y = (m, Ok tt) -> glm_train inverse' Normal s' A' y = (m', Ok tt) ->
  exists out, glm_predict Normal m Z = Ok out /\ glm_predict Normal m' Z' = Ok out.
Proof. exact scaled_glm. Qed.
Print Assumptions C136_glm.
(** And the Gaussian naive Bayes classifier. *)
Theorem C136_naive_bayes : forall A T M cs tr A' M', classified A T M cs -> gauss_ready A cs (mcols T) -> mwf A ->
  fitted_scaling A tr -> tr A = Ok (inj A') -> tr M = Ok (inj M') ->
  forall m1 m2, exists out, answers Gaussian m1 A T M out /\ answers Gaussian m2 A' T M' out.
Proof. exact scaled_bayes. Qed.
Print Assumptions C136_naive_bayes.
Example C136_naive_bayes_ex : classified nbx nbt nbm nbcs /\ gauss_ready nbx nbcs 2 /\ exists tr, fitted_scaling nbx tr /\ mwf nbx.
Proof. exact (conj nb_classified (conj (proj1 nb_ready) nb_scaled)). Qed.

(** C137: a PCA model that keeps all components moves every row by one rigid motion. *)
Theorem C137_motion : forall svd self A self', full_pca svd self A self' ->
  exists T, motion (mcols A) (mcols A) T /\ (pca_center self = false -> rigid (mcols A) (mcols A) T) /\
    forall Y, mwf Y -> mcols Y = mcols A -> pca_predict self' Y = Ok (map_rows (mcols A) T Y).
Proof. exact pca_motion. Qed.
Print Assumptions C137_motion.
Example C137_ex : full_pca Proof_PCAEx.svd_ex (pca_new 3 false) Proof_PCAEx.A3 Proof_PCAEx.after_A3.
Proof. exact A3_full. Qed.
(** Models that only look at distances, or at affine functions of the rows, give the same answers on rotated data: k-means, *)
Theorem C137_kmeans : forall svd self A self', full_pca svd self A self' -> forall M C0 Q M' C0' Q', mwf M -> mwf C0 -> mwf Q -> mcols M = mcols A -> mcols C0 = mcols A -> mcols Q = mcols A ->
  pca_predict self' M = Ok M' -> pca_predict self' C0 = Ok C0' -> pca_predict self' Q = Ok Q' ->
  forall tol k iters, clusters tol (km_new k iters) (Ok (inj C0')) (inj M') (inj Q') = clusters tol (km_new k iters) (Ok (inj C0)) (inj M) (inj Q).
Proof. exact rotated_kmeans. Qed.
Print Assumptions C137_kmeans.
(** DBSCAN, *)
Theorem C137_dbscan : forall svd self A self', full_pca svd self A self' -> forall M M' (m m1 m1' : DBSCAN R) lab lab', mwf M -> mcols M = mcols A -> pca_predict self' M = Ok M' ->
  dbscan_train (nrows M) m M = Some m1 -> dbscan_train (nrows M) m M' = Some m1' -> db_clusters m1 = Some lab -> db_clusters m1' = Some lab' -> lab' = lab.
Proof. exact rotated_dbscan. Qed.
Print Assumptions C137_dbscan.
(** nearest neighbours, *)
Theorem C137_knn : forall svd self A self', full_pca svd self A self' -> forall M Q M' Q' (c c' : KNNClassifier (option (matrix R))), mwf M -> mwf Q -> mcols M = mcols A -> mcols Q = mcols A ->
  pca_predict self' M = Ok M' -> pca_predict self' Q = Ok Q' ->
  knn_searcher _ c = Some M -> knn_searcher _ c' = Some M' -> knn_k _ c' = knn_k _ c -> knn_target _ c' = knn_target _ c -> (knn_k _ c <= nrows M)%nat ->
  knn_predict (brute_search (F := R)) c' Q' = knn_predict (brute_search (F := R)) c Q.
Proof. exact rotated_knn. Qed.
Print Assumptions C137_knn.
(** linear regression, *)
Theorem C137_linreg : forall svd self A self', full_pca svd self A self' -> forall solve solve' s s' M y Q M' Q' m m', solver_sound solve -> solver_sound solve' ->
  mwf M -> mwf Q -> mcols M = mcols A -> mcols Q = mcols A -> pca_predict self' M = Ok M' -> pca_predict self' Q = Ok Q' -> Forall (Spec_Equiv.determined M) (mrows Q) ->
  lr_train solve s M y = (m, Ok tt) -> lr_train solve' s' M' y = (m', Ok tt) -> exists out, lr_predict m Q = Ok out /\ lr_predict m' Q' = Ok out.
Proof. exact rotated_linreg. Qed.
Print Assumptions C137_linreg.
(** the normal generalised linear model, *)
Theorem C137_glm : forall svd self A self', full_pca svd self A self' -> forall inverse inverse' s s' M y Q M' Q' m m', inverse_sound inverse -> inverse_sound inverse' ->
  mwf M -> mwf Q -> mcols M = mcols A -> mcols Q = mcols A -> pca_predict self' M = Ok M' -> pca_predict self' Q = Ok Q' -> Forall (Spec_Equiv.determined M) (mrows Q) ->
  glm_train inverse Normal s M y = (m, Ok tt) -> glm_train inverse' Normal s' M' y = (m', Ok tt) -> exists out, glm_predict Normal m Q = Ok out /\ glm_predict Normal m' Q' = Ok out.
Proof. exact rotated_glm. Qed.
Print Assumptions C137_glm.
(** and support vector machines and Gaussian processes with a kernel of the distance, or, when PCA does not centre, with any kernel of the library. *)
Theorem C137_svm : forall svd self A self', full_pca svd self A self' -> forall K sv M y Q M' Q', distance_kernel K \/ (library_kernel K /\ pca_center self = false) ->
  mwf M -> mwf Q -> mcols M = mcols A -> mcols Q = mcols A -> pca_predict self' M = Ok M' -> pca_predict self' Q = Ok Q' ->
  (let! m := svm_train K sv M' y in RRet (svm_predict K m Q')) = (let! m := svm_train K sv M y in RRet (svm_predict K m Q)).
Proof. exact rotated_svm. Qed.
Print Assumptions C137_svm.
Theorem C137_gp : forall svd self A self', full_pca svd self A self' -> forall K mean cholesky solve_l solve_u gp M y Q M' Q', distance_kernel K \/ (library_kernel K /\ pca_center self = false) ->
  mwf M -> mwf Q -> mcols M = mcols A -> mcols Q = mcols A -> pca_predict self' M = Ok M' -> pca_predict self' Q = Ok Q' -> mean M' = mean M -> mean Q' = mean Q ->
  exists m m' r, gp_train K mean cholesky solve_l solve_u gp M y = (m, r) /\ gp_train K mean cholesky solve_l solve_u gp M' y = (m', r) /\
    (r = Ok tt -> gp_predict K mean m' Q' = gp_predict K mean m Q /\ gp_get_posterior K mean solve_l m' Q' = gp_get_posterior K mean solve_l m Q).
Proof. exact rotated_gp. Qed.
Print Assumptions C137_gp.
Example C137_kernels_ex : distance_kernel (k_squared_exp 1 2) /\ library_kernel (k_linear 1) /\ pca_center (pca_new 3 false : PCA R) = false /\ mcols (Mat [[1; 2; 3]] 3) = mcols Proof_PCAEx.A3.
Proof. split; [exact (dk_squared_exp 1 2)|]. split; [exact (lk_linear 1)|]. split; reflexivity. Qed.
