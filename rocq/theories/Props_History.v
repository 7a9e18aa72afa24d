(** * C05, C36, C37, C62, C90-C93: histories of training calls, every model of the crate *)
From Coq Require Import List Arith Lia Bool Reals Lra ZArith.
From Verif Require Import Base Num NumF Model_Toolkit NumFn Linalg Model_KNN Model_KMeans Model_DBSCAN Spec_DBSCAN Model_NaiveBayes Model_Optim Model_Regression Model_GLM
  Model_Kernel Model_GP Model_SVM Model_PCA Spec_PCA Model_GMM Model_NNet Model_CrossVal Spec_CrossVal Model_History Spec_History
  Proof_DBSCANEx Proof_PCAEx Proof_GMMEx Proof_History Proof_HistoryEx.
Import ListNotations.

(** C62 fails for neural networks: a fresh one predicts (from its random weights)... *)
Theorem C62_refuted_nnet : forall rng x s (c : Model_NNet.Criterion R) a net, net_mlp rng (x :: s) c a = Ok net ->
  forall X, mwf X -> mcols X = x -> exists P, net_predict net X = Ok P.
Proof. exact fresh_net_predicts. Qed.
Print Assumptions C62_refuted_nnet.
Example C62_nnet_ex : exists net, net_mlp (fun _ _ => 0%R) [3; 2; 1] (Model_NNet.MSECriterion Model_Toolkit.RegNone) Sigmoid = Ok net /\ mwf (Mat [[1; 2; 3]%R] 3).
Proof. eexists. split; [reflexivity|repeat constructor]. Qed.
(** ... and DBSCAN without predict mode reports an invalid state. *)
Theorem C62_refuted_dbscan : forall (F : Type) (N : Num F) (eps : F) mp m X, dbscan_new eps mp = Ok m -> dbscan_predict m X = Err InvalidState.
Proof. exact @db_mode_off. Qed.
Print Assumptions C62_refuted_dbscan.

(** C92: every other model refuses until a call has succeeded, whatever failed before. *)
Theorem C92_knn : forall (F S : Type) (sb : S -> matrix F -> res S) (se : S -> list F -> nat -> res (list nat * list F)) k s,
  refuses_until_trained (knn_trains sb) (knn_predict se) {| knn_k := k; knn_searcher := s; knn_target := None |}.
Proof. exact (fun F S => @knn_refuses F S). Qed.
Print Assumptions C92_knn.
Theorem C92_kmeans : forall (F : Type) (N : Num F) (tol : F) init k iters, refuses_until_trained (km_trains tol init) km_predict (km_new k iters).
Proof. exact @km_refuses. Qed.
Print Assumptions C92_kmeans.
Theorem C92_dbscan : forall (F : Type) (N : Num F) (eps : F) mp m, dbscan_new eps mp = Ok m -> refuses_until_trained db_trains dbscan_predict (set_predictive m true).
Proof. exact @db_refuses. Qed.
Print Assumptions C92_dbscan.
Theorem C92_naive_bayes : forall (F : Type) (N : Num F) (P : Type) (D : Distribution P), refuses_until_trained (nb_trains D) (nb_predict D) (nb_new (F := F)).
Proof. exact @nb_refuses. Qed.
Print Assumptions C92_naive_bayes.
Theorem C92_lin_reg : forall (F : Type) (N : Num F) solve, refuses_until_trained (lr_trains solve) lr_predict (lr_default (F := F)).
Proof. exact @lr_refuses. Qed.
Print Assumptions C92_lin_reg.
Theorem C92_logistic_reg : forall (F : Type) (N : Num F) (NF : NumFn F) optimize, refuses_until_trained (log_trains optimize) log_predict (log_new (F := F)).
Proof. exact @log_refuses. Qed.
Print Assumptions C92_logistic_reg.
Theorem C92_glm : forall (F : Type) (N : Num F) inverse cr, refuses_until_trained (glm_trains inverse cr) (glm_predict cr) (glm_new (F := F)).
Proof. exact @glm_refuses. Qed.
Print Assumptions C92_glm.
Theorem C92_gp : forall (F : Type) (N : Num F) ker mean ch sl su (noise : F),
  refuses_until_trained (gp_trains ker mean ch sl su) (gp_predict ker mean) (gp_new noise) /\
  refuses_until_trained (gp_trains ker mean ch sl su) (gp_get_posterior ker mean sl) (gp_new noise).
Proof. exact (fun F N ker mean ch sl su noise => conj (gp_refuses ker mean ch sl su noise) (gp_posterior_refuses ker mean ch sl su noise)). Qed.
Print Assumptions C92_gp.
Theorem C92_svm : forall (F : Type) (N : Num F) ker (lambda : F) iters, refuses_until_trained (svm_trains ker) (svm_predict ker)
  {| svm_alpha := None; svm_train_inputs := None; svm_train_targets := None; svm_lambda := lambda; svm_optim_iters := iters |}.
Proof. exact @svm_refuses. Qed.
Print Assumptions C92_svm.
Theorem C92_pca : forall (F : Type) (N : Num F) svd (start : PCA F), start = pca_default \/ (exists n c, start = pca_new n c) ->
  refuses_until_trained (pca_trains svd) pca_predict start.
Proof. exact @pca_refuses. Qed.
Print Assumptions C92_pca.
Theorem C92_pca_components : forall (F : Type) (N : Num F) svd (start : PCA F), start = pca_default \/ (exists n c, start = pca_new n c) ->
  refuses_until_trained (pca_trains svd) (fun m (_ : unit) => pca_get_components m) start.
Proof. exact @pca_components_refuses. Qed.
Print Assumptions C92_pca_components.
(** [lup] returns an answer or panics: the inverse of a decomposed matrix exists. *)
Theorem C92_gmm : forall (F : Type) (N : Num F) (NF : NumFn F) lup (start : GMM F), (forall C k, lup C <> Err k) -> gmm_means start = None ->
  refuses_until_trained (gmm_trains lup) (gmm_predict lup) start.
Proof. exact @gmm_refuses. Qed.
Print Assumptions C92_gmm.
(** A rejected call, then a query. *)
Example C92_ex : history (knn_trains brute_builder) knn_fresh [((knn_data, [7]), Err InvalidData)] knn_fresh /\ Forall failed [((knn_data, [7]), Err (A := unit) InvalidData)].
Proof.
  split; [|repeat constructor; eexists; reflexivity].
  apply (H_call (knn_trains brute_builder) knn_fresh [] knn_fresh (knn_data, [7])); [constructor|reflexivity|discriminate].
Qed.
Example C92_ex_gmm : (forall C k, lupR C <> Err k) /\ gmm_means (gmm_new (F := R) 2) = None.
Proof.
  split; [|reflexivity]. intros C k. unfold lupR. destruct (mrows C) as [|[|x [|]] [|]]; try discriminate. destruct (Req_EM_T x 0); discriminate.
Qed.

(** C36 fails for naive Bayes: here a rejected call changes the predicted class. *)
Theorem C36_refuted_naive_bayes : exists m1 m2 T k, nb_train Multinomial nb_new NBX NBT = (m1, Ok tt) /\ nb_train Multinomial m1 NBq T = (m2, Err k) /\
  nb_predict Multinomial m1 NBq = Ok (Mat [[1; 0]%R] 2) /\ nb_predict Multinomial m2 NBq = Ok (Mat [[0; 1]%R] 2).
Proof. exact nb_failure_harms. Qed.
Print Assumptions C36_refuted_naive_bayes.

(** C91: it holds for every other model, from every state. *)
Theorem C91_knn : forall (F S : Type) (sb : S -> matrix F -> res S) (se : S -> list F -> nat -> res (list nat * list F)) start, survives_failure (knn_trains sb) (knn_predict se) start.
Proof. exact (fun F S => @knn_survives F S). Qed.
Print Assumptions C91_knn.
Theorem C91_kmeans : forall (F : Type) (N : Num F) (tol : F) init start, survives_failure (km_trains tol init) km_predict start.
Proof. exact @km_survives. Qed.
Print Assumptions C91_kmeans.
Theorem C91_lin_reg : forall (F : Type) (N : Num F) solve (start : LinRegressor F), survives_failure (lr_trains solve) lr_predict start.
Proof. exact @lr_survives. Qed.
Print Assumptions C91_lin_reg.
Theorem C91_logistic_reg : forall (F : Type) (N : Num F) (NF : NumFn F) optimize (start : LogisticRegressor F), survives_failure (log_trains optimize) log_predict start.
Proof. exact @log_survives. Qed.
Print Assumptions C91_logistic_reg.
Theorem C91_glm : forall (F : Type) (N : Num F) inverse cr (start : GenLinearModel F), survives_failure (glm_trains inverse cr) (glm_predict cr) start.
Proof. exact @glm_survives. Qed.
Print Assumptions C91_glm.
Theorem C91_gp : forall (F : Type) (N : Num F) ker mean ch sl su (start : GaussianProcess F), survives_failure (gp_trains ker mean ch sl su) (gp_predict ker mean) start.
Proof. exact @gp_survives. Qed.
Print Assumptions C91_gp.
Theorem C91_pca : forall (F : Type) (N : Num F) svd (start : PCA F), survives_failure (pca_trains svd) pca_predict start.
Proof. exact @pca_survives. Qed.
Print Assumptions C91_pca.
Theorem C91_gmm : forall (F : Type) (N : Num F) (NF : NumFn F) lup (start : GMM F), (forall C k, lup C <> Err k) -> survives_failure (gmm_trains lup) (gmm_predict lup) start.
Proof. exact @gmm_survives. Qed.
Print Assumptions C91_gmm.
(** DBSCAN, the SVM and the network have no failing calls: [train] returns [Ok] or panics. *)
Theorem C91_never_fail : forall (F : Type) (N : Num F),
  (forall (m : DBSCAN F) d m' k, ~ db_trains m d m' (Err k)) /\ (forall ker (m : SVM F) d m' k, ~ svm_trains ker m d m' (Err k)) /\
  (forall optimize (m : BaseNeuralNet F) d m' k, ~ net_trains optimize m d m' (Err k)).
Proof. exact @never_fail. Qed.
Print Assumptions C91_never_fail.
Example C91_ex : knn_trains brute_builder knn_fresh (knn_data, [7; 8]) {| knn_k := 2; knn_searcher := Some knn_data; knn_target := Some [7; 8] |} (Ok tt) /\
  knn_trains brute_builder {| knn_k := 2; knn_searcher := Some knn_data; knn_target := Some [7; 8] |} (knn_data, [7])
    {| knn_k := 2; knn_searcher := Some knn_data; knn_target := Some [7; 8] |} (Err InvalidData).
Proof. split; reflexivity. Qed.

(** C37 fails for neural networks (training starts from the stored weights)... *)
Theorem C37_refuted_nnet : exists m1 m2, outcome (net_train (gd_as_optimizer gd1) (netw 1) X11 Proof_NNetEx.X1) (Some m1) /\
  outcome (net_train (gd_as_optimizer gd1) m1 X11 Proof_NNetEx.X1) (Some m2) /\
  net_predict m1 X11 = Ok (Mat [[3 / 4]%R] 1) /\ net_predict m2 X11 = Ok (Mat [[9 / 16]%R] 1).
Proof. exact net_remembers. Qed.
Print Assumptions C37_refuted_nnet.
(** ... for Gaussian mixtures (the mixture weights are kept)... *)
Theorem C37_refuted_gmm : exists m1 m2 m3 w, outcome (gmm_train lupR (gmm_set_max_iters (gmm_new 2) 1) D004) (Some (m1, Ok tt)) /\
  outcome (gmm_train lupR (gmm_set_max_iters m1 0) Dpm) (Some (m2, Ok tt)) /\
  outcome (gmm_train lupR (gmm_set_max_iters (gmm_new 2) 0) Dpm) (Some (m3, Ok tt)) /\
  gmm_predict lupR m2 Q0 = Ok (Mat [[w; 1 - w]%R] 2) /\ gmm_predict lupR m3 Q0 = Ok (Mat [[1 / 2; 1 - 1 / 2]%R] 2) /\ (1 / 2 < w)%R.
Proof. exact gmm_remembers. Qed.
Print Assumptions C37_refuted_gmm.
(** ... for DBSCAN when predict mode is changed between the calls... *)
Theorem C37_refuted_dbscan : exists m1 m2, db_run model0 (stale [50; 60]%Z) = Some m1 /\ db_run model0 (quiet [50; 60]%Z) = Some m2 /\
  dbscan_predict m1 (zmat [0]%Z) = Ok [Some 0] /\ dbscan_predict m2 (zmat [0]%Z) = Err UntrainedModel.
Proof. exact dbscan_remembers. Qed.
Print Assumptions C37_refuted_dbscan.
(** ... and for PCA after wide data. *)
Theorem C37_refuted_pca : exists m1 m2 m3, pca_train svd_ex (pca_new 3 false) W1 = (m1, Ok tt) /\ pca_train svd_ex m1 A3 = (m2, Ok tt) /\
  pca_train svd_ex (pca_new 3 false) A3 = (m3, Ok tt) /\
  pca_predict m3 (Mat [[1; 2; 3]%R] 3) = Ok (Mat [[2; 3; 1]%R] 3) /\ pca_predict m2 (Mat [[1; 2; 3]%R] 3) = Ok (Mat [[3; 1; 2]%R] 3).
Proof. exact pca_remembers. Qed.
Print Assumptions C37_refuted_pca.

(** C90: for the other models a successful call leaves exactly a state it could leave on the initial model. *)
Theorem C90_knn_brute : forall (F : Type) start, replaced_by_retraining (knn_trains (brute_builder (F := F))) start.
Proof. exact @brute_replaced. Qed.
Print Assumptions C90_knn_brute.
Theorem C90_knn_tree : forall (F : Type) (N : Num F) (G : Type) (B : @BinarySplit F G) fuel start, replaced_by_retraining (knn_trains (tree_builder B fuel)) start.
Proof. exact @tree_replaced. Qed.
Print Assumptions C90_knn_tree.
Theorem C90_kmeans : forall (F : Type) (N : Num F) (tol : F) init start, replaced_by_retraining (km_trains tol init) start.
Proof. exact @km_replaced. Qed.
Print Assumptions C90_kmeans.
Theorem C90_dbscan : forall (F : Type) (N : Num F) (start : DBSCAN F), replaced_by_retraining db_trains start.
Proof. exact @db_replaced. Qed.
Print Assumptions C90_dbscan.
Theorem C90_naive_bayes : forall (F : Type) (N : Num F) (P : Type) (D : Distribution P) (start : NaiveBayes F P), replaced_by_retraining (nb_trains D) start.
Proof. exact @nb_replaced. Qed.
Print Assumptions C90_naive_bayes.
Theorem C90_lin_reg : forall (F : Type) (N : Num F) solve (start : LinRegressor F), replaced_by_retraining (lr_trains solve) start.
Proof. exact @lr_replaced. Qed.
Print Assumptions C90_lin_reg.
Theorem C90_logistic_reg : forall (F : Type) (N : Num F) (NF : NumFn F) optimize (start : LogisticRegressor F), replaced_by_retraining (log_trains optimize) start.
Proof. exact @log_replaced. Qed.
Print Assumptions C90_logistic_reg.
Theorem C90_glm : forall (F : Type) (N : Num F) inverse cr (start : GenLinearModel F), replaced_by_retraining (glm_trains inverse cr) start.
Proof. exact @glm_replaced. Qed.
Print Assumptions C90_glm.
Theorem C90_gp : forall (F : Type) (N : Num F) ker mean ch sl su (start : GaussianProcess F), replaced_by_retraining (gp_trains ker mean ch sl su) start.
Proof. exact @gp_replaced. Qed.
Print Assumptions C90_gp.
Theorem C90_svm : forall (F : Type) (N : Num F) ker (start : SVM F), replaced_by_retraining (svm_trains ker) start.
Proof. exact @svm_replaced. Qed.
Print Assumptions C90_svm.
(** PCA: when no earlier successful call was on wide data, or the new data is wide. *)
Theorem C90_pca : forall (F : Type) (N : Num F) svd (start m : PCA F) hs, history (pca_trains svd) start hs m ->
  forall X m', (forall T, In (T, Ok tt) hs -> ~ wide T) \/ wide X -> pca_trains svd m X m' (Ok tt) <-> pca_trains svd start X m' (Ok tt).
Proof. exact @pca_replaced. Qed.
Print Assumptions C90_pca.
(** A history with a success and a failure, then a new training set. *)
Example C90_ex : exists m m', history (knn_trains brute_builder) knn_fresh [((Mat [[5%R]; [6%R]] 1, [1; 2]), Ok tt); ((knn_data, [7]), Err InvalidData)] m /\
  knn_trains brute_builder m (knn_data, [7; 8]) m' (Ok tt) /\ m <> knn_fresh /\ m' <> m.
Proof.
  exists {| knn_k := 2; knn_searcher := Some (Mat [[5%R]; [6%R]] 1); knn_target := Some [1; 2] |}.
  exists {| knn_k := 2; knn_searcher := Some knn_data; knn_target := Some [7; 8] |}. split; [|split; [reflexivity|split; discriminate]].
  apply (H_call (knn_trains brute_builder) knn_fresh [_]
    {| knn_k := 2; knn_searcher := Some (Mat [[5%R]; [6%R]] 1); knn_target := Some [1; 2] |} (knn_data, [7])); [|reflexivity|discriminate].
  apply (H_call (knn_trains brute_builder) knn_fresh [] knn_fresh (Mat [[5%R]; [6%R]] 1, [1; 2])); [constructor|reflexivity|discriminate].
Qed.
Example C90_ex_pca : history (pca_trains svd_ex) (pca_new 3 false) [(A3, Ok tt)] after_A3 /\ ~ wide A3.
Proof.
  split; [|exact (Nat.lt_irrefl 3)]. apply (H_call (pca_trains svd_ex) (pca_new 3 false) [] (pca_new 3 false) A3); [constructor|exact train_A3|discriminate].
Qed.

(** C05 fails for neural networks: the second score is that of a model that has already seen the
    second test row.  A fresh model would score -9/16 on both splits. *)
Theorem C05_refuted_nnet : exists cs m' ps,
  outcome (k_fold_validate fold_train fold_predict fold_score (netw 1) [[1]; [1]]%R [[0]; [0]]%R 2) (Some (Ok cs, m')) /\
  kfold_partition 2 2 ps /\ validated fold_train fold_predict fold_score [[1]; [1]]%R [[0]; [0]]%R ps (netw 1) (Ok cs) m' /\
  (forall cs', Forall2 (split_score fold_train fold_predict fold_score [[1]; [1]]%R [[0]; [0]]%R (netw 1)) ps cs' -> cs' = [- (9 / 16); - (9 / 16)]%R) /\
  cs = [- (9 / 16); - (81 / 256)]%R.
Proof. exact net_folds_depend. Qed.
Print Assumptions C05_refuted_nnet.

(** C93: for a model replaced by retraining (C90) every score is that of the initial model trained on
    that split alone. *)
Theorem C93_fold_scores : forall (M X Y F : Type) (train : M -> list X -> list Y -> res unit * M) predict (score : list Y -> list Y -> res F)
    inputs targets ps m0 cs m',
  replaced_by_retraining (fun m d m' r => train m (fst d) (snd d) = (r, m')) m0 ->
  validated train predict score inputs targets ps m0 (Ok cs) m' -> Forall2 (split_score train predict score inputs targets m0) ps cs.
Proof. exact @folds_independent. Qed.
Print Assumptions C93_fold_scores.
(** The classifier of k nearest rows under cross validation. *)
Theorem C93_knn : forall (F : Type) (w : nat) se (score : list nat -> list nat -> res F) inputs targets ps
    (m0 : KNNClassifier (option (matrix F))) cs m',
  validated (knn_fold_train brute_builder w) (knn_fold_predict se w) score inputs targets ps m0 (Ok cs) m' ->
  Forall2 (split_score (knn_fold_train brute_builder w) (knn_fold_predict se w) score inputs targets m0) ps cs.
Proof. exact @knn_folds_independent. Qed.
Print Assumptions C93_knn.
(** Leaving one row out, with two rows. *)
Example C93_ex : exists m', validated (knn_fold_train brute_builder 1) (knn_fold_predict (brute_search (F := R)) 1) (fun o t => Ok (INR (hd O o) - INR (hd O t))%R)
  [[0]; [4]]%R [5; 6] [([1], [0]); ([0], [1])] {| knn_k := 1; knn_searcher := None; knn_target := None |} (Ok [INR 6 - INR 5; INR 5 - INR 6]%R) m'.
Proof. exact knn_fold_ex. Qed.
