(** * C106: predictions and transformations are row by row, in any arithmetic *)
From Coq Require Import List Arith Lia Bool Reals Lra.
From Verif Require Import Base Num NumFn Linalg Spec_Batch Model_Toolkit Model_Optim Model_Regression Model_GLM Model_KNN Model_KMeans Model_DBSCAN Model_NaiveBayes
  Model_Kernel Model_GP Model_SVM Model_NNet Model_PCA Model_GMM Model_Transforms Proof_Batch.
Import ListNotations.

Theorem C106_knn : forall (F S : Type) (se : S -> list F -> nat -> res (list nat * list F)) (c : KNNClassifier S), row_by_row (knn_predict se c).
Proof. exact @knn_rows. Qed.
Print Assumptions C106_knn.
Theorem C106_clusterers : forall (F : Type) (N : Num F) (m : KMeans F) (d : DBSCAN F), row_by_row (km_predict m) /\ row_by_row (dbscan_predict d).
Proof. exact (fun F N m d => conj (km_rows m) (db_rows d)). Qed.
Print Assumptions C106_clusterers.
Theorem C106_regressors : forall (F : Type) (N : Num F) (NF : NumFn F) (m : LinRegressor F) (l : LogisticRegressor F) (cr : Model_GLM.Criterion F) (g : GenLinearModel F),
  row_by_row (lr_predict m) /\ row_by_row (log_predict l) /\ row_by_row (glm_predict cr g).
Proof. exact (fun F N NF m l cr g => conj (lr_rows m) (conj (log_rows l) (glm_rows cr g))). Qed.
Print Assumptions C106_regressors.
Theorem C106_svm : forall (F : Type) (N : Num F) (ker : Kernel F) (m : SVM F), row_by_row (svm_predict ker m).
Proof. exact @svm_rows. Qed.
Print Assumptions C106_svm.
(** Gaussian processes, if the mean function works row by row ... *)
Theorem C106_gp : forall (F : Type) (N : Num F) (ker : Kernel F) (mean : MeanFunc F) (h : list F -> F) (m : GaussianProcess F),
  (forall M, mean M = map h (mrows M)) -> row_by_row (gp_predict ker mean m).
Proof. exact @gp_rows. Qed.
Print Assumptions C106_gp.
(** ... which [ConstMean] does. *)
Theorem C106_const_mean : forall (F : Type) (N : Num F) (a : F) (M : matrix F), const_mean a M = map (fun _ => nadd nzero a) (mrows M).
Proof. exact @const_mean_rows. Qed.
Print Assumptions C106_const_mean.
Theorem C106_naive_bayes : forall (F : Type) (N : Num F) (NF : NumFn F) (m : NaiveBayes F (Gauss F)) (m' : NaiveBayes F (Smooth F)),
  row_by_row_mat (nb_predict Gaussian m) /\ row_by_row_mat (nb_predict Bernoulli m') /\ row_by_row_mat (nb_predict Multinomial m').
Proof. exact @nb_builtin. Qed.
Print Assumptions C106_naive_bayes.
Theorem C106_pca : forall (F : Type) (N : Num F) (m : PCA F), row_by_row_mat (pca_predict m).
Proof. exact @pca_rows. Qed.
Print Assumptions C106_pca.
Theorem C106_gmm : forall (F : Type) (N : Num F) (NF : NumFn F) lup (m : GMM F), row_by_row_mat (gmm_predict lup m).
Proof. exact @gmm_rows. Qed.
Print Assumptions C106_gmm.
(** Neural networks made of the layers of the crate ... *)
Theorem C106_nnet : forall (F : Type) (N : Num F) (NF : NumFn F) (net : BaseNeuralNet F), Forall plain_layer (nn_layers net) -> row_by_row_mat (net_predict net).
Proof. exact @net_rows. Qed.
Print Assumptions C106_nnet.
(** ... among them all multilayer perceptrons. *)
Theorem C106_mlp : forall (F : Type) (N : Num F) (NF : NumFn F) rng (sizes : list nat) (c : Model_NNet.Criterion F) (a : Activ F) (net : BaseNeuralNet F),
  net_mlp rng sizes c a = Ok net -> Forall plain_layer (nn_layers net).
Proof. exact @net_mlp_plain. Qed.
Print Assumptions C106_mlp.
Theorem C106_transforms : forall (F : Type) (N : Num F) (sc : MinMaxScaler F) (st : Standardizer F) (norm : list F -> F),
  row_by_row_mat (minmax_transform sc) /\ row_by_row_mat (minmax_inv sc) /\ row_by_row_mat (standardizer_transform st) /\ row_by_row_mat (standardizer_inv st) /\
  row_by_row_mat (normalize norm).
Proof. exact (fun F N sc st norm => conj (minmax_rows sc) (conj (minmax_inv_rows sc) (conj (std_rows st) (conj (std_inv_rows st) (normalize_rows norm))))). Qed.
Print Assumptions C106_transforms.
(** A batch of two rows that is answered, and one that is not. *)
Example C106_ex : let m := {| lr_parameters := Some [1; 2]%R |} in let M := Mat [[3]; [4]]%R 1 in
  mwf M /\ nrows M = 2 /\ (exists out, lr_predict m M = Ok out) /\ lr_predict m (Mat [[3; 4]]%R 2) = Panic.
Proof. split; [repeat constructor|]. split; [reflexivity|]. split; [eexists; reflexivity|reflexivity]. Qed.
