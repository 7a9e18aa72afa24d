(** * C196: which models can answer exclusive-or ([src/learning/lin_reg.rs], [logistic_reg.rs], [glm.rs], [gp.rs], [svm.rs], [k_means.rs], [naive_bayes.rs], [knn/mod.rs]; exact arithmetic) *)
From Coq Require Import List Arith Reals.
From Verif Require Import Base Num NumFn NumSign NumOrd Linalg Model_Toolkit Model_Regression Model_GLM Model_Kernel Model_GP Model_SVM Model_KMeans Model_NaiveBayes Model_KNN Model_History
  Spec_Between Proof_Between Spec_Cross Proof_Cross Model_NNet Proof_CrossNet.
Import ListNotations.

(** Whatever it was trained on, no linear, logistic or generalized linear model, and no Gaussian process with the linear kernel and a constant mean, is above a threshold
    on both ends of one segment and not above it on both ends of a segment crossing the first. *)
Theorem C196_regression : (forall self : LinRegressor R, never_split (lr_predict self)) /\
  (forall (c a : R) self, never_split (gp_predict (k_linear c) (const_mean a) self)) /\
  (forall self : LogisticRegressor R, never_split (log_predict self)) /\
  (forall (cr : Model_GLM.Criterion R) self, In (cr_link cr) [Model_GLM.Identity; Model_GLM.Logit; Model_GLM.Log] -> never_split (glm_predict cr self)).
Proof.
  exact (conj (fun s => between_never_split _ (affine_between _ (lr_affine s))) (conj (fun c a s => between_never_split _ (affine_between _ (gp_affine c a s)))
    (conj (fun s => between_never_split _ (log_between s)) (fun cr s H => between_never_split _ (glm_between cr s H))))).
Qed.
Print Assumptions C196_regression.

(** No linear support vector machine, no k-means model and no Bernoulli or multinomial naive Bayes classifier puts the ends of two crossing segments into two different classes. *)
Theorem C196_classifiers : (forall (c : R) self, never_crossed (svm_predict (k_linear c) self)) /\
  (forall (m : KMeans R) C, km_centroids m = Some C -> mwf C -> never_crossed (km_predict m)) /\
  (forall m : NaiveBayes R (Smooth R), never_crossed (nb_predict Bernoulli m)) /\ (forall m : NaiveBayes R (Smooth R), never_crossed (nb_predict Multinomial m)).
Proof.
  exact (conj (fun c s => convex_never_crossed _ (svm_convex c s)) (conj (fun m C H W => convex_never_crossed _ (km_convex m C H W))
    (conj (fun m => convex_never_crossed _ (bernoulli_convex m)) (fun m => convex_never_crossed _ (multinomial_convex m))))).
Qed.
Print Assumptions C196_classifiers.
(** The diagonals of the unit square cross, so exclusive-or is out of reach for all of them. *)
Example C196_ex : crossing [0; 0]%R [1; 1]%R [0; 1]%R [1; 0]%R.
Proof. exact square_crossing. Qed.

(** A nearest-neighbour classifier with one neighbour learns it. *)
Theorem C196_neighbour : forall (s0 : option (matrix R)) (t0 : option (list nat)),
  exists c', knn_train brute_builder {| knn_k := 1; knn_searcher := s0; knn_target := t0 |} square [0; 0; 1; 1] = (c', Ok tt) /\
  knn_predict (brute_search (F := R)) c' square = Ok [0; 0; 1; 1].
Proof. exact neighbour_xor. Qed.
Print Assumptions C196_neighbour.

(** A network without a hidden layer, whatever its weights, cannot either. *)
Theorem C196_single_layer : forall (net : BaseNeuralNet R) d, nn_layers net = mlp_layers [d; 1] Sigmoid -> length (nn_weights net) = S d ->
  forall x x' y y' a a' b b' h, length x = d -> length y = d -> crossing x x' y y' ->
  net_predict net (query x) = Ok (Mat [[a]] 1) -> net_predict net (query x') = Ok (Mat [[a']] 1) -> net_predict net (query y) = Ok (Mat [[b]] 1) -> net_predict net (query y') = Ok (Mat [[b']] 1) ->
  ~ (h < a /\ h < a' /\ b <= h /\ b' <= h)%R.
Proof. exact single_never_split. Qed.
Print Assumptions C196_single_layer.
Example C196_single_layer_ex : forall rng, exists net : BaseNeuralNet R, net_default rng [2; 1] = Ok net /\ nn_layers net = mlp_layers [2; 1] Sigmoid /\ length (nn_weights net) = 3 /\
  exists a, net_predict net (query [0; 0]%R) = Ok (Mat [[a]] 1).
Proof. exact single_case. Qed.

(** The default network with two hidden units can: there are weights with which it does. *)
Theorem C196_hidden_layer : forall rng, exists net o00 o11 o01 o10, net_default rng [2; 2; 1] = Ok net /\ length xor_weights = length (nn_weights net) /\
  net_predict (set_weights net xor_weights) square = Ok (Mat [[o00]; [o11]; [o01]; [o10]] 1) /\
  (o00 < 1 / 2 /\ o11 < 1 / 2 /\ 1 / 2 < o01 /\ 1 / 2 < o10)%R.
Proof. exact net_xor. Qed.
Print Assumptions C196_hidden_layer.
