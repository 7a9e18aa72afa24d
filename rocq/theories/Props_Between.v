(** * C179: between two queries ([src/learning/lin_reg.rs], [logistic_reg.rs], [glm.rs], [gp.rs], [svm.rs], [k_means.rs], [naive_bayes.rs]; exact arithmetic) *)
From Coq Require Import List Arith Lia Reals Lra.
From Verif Require Import Base Num NumFn NumSign NumOrd Linalg Model_Optim Model_Toolkit Model_Regression Model_GLM Model_Kernel Model_GP Model_SVM Model_KMeans Model_NaiveBayes
  Spec_Between Proof_NaiveBayesEx Proof_Between Proof_BetweenEx.
Import ListNotations.

(** Linear regression and a Gaussian process with the linear kernel and a constant mean: along a straight line the answer changes at a constant rate. *)
Theorem C179_linear : (forall self : LinRegressor R, affine_answers (lr_predict self)) /\
  (forall (c a : R) self, affine_answers (gp_predict (k_linear c) (const_mean a) self)).
Proof. exact (conj lr_affine gp_affine). Qed.
Print Assumptions C179_linear.
Example C179_linear_ex : lr_predict line_lr (query [0%R]) = Ok [1%R] /\ lr_predict line_lr (query [4%R]) = Ok [9%R] /\ lr_predict line_lr (query (mix (1 / 2) [0%R] [4%R])) = Ok [5%R].
Proof. unfold mix. cbn [map2]. rewrite !line_lr_at. repeat split; do 2 f_equal; lra. Qed.

(** Logistic regression, and a generalized linear model with any of the three links: the answer lies between the two answers. *)
Theorem C179_links : (forall self : LogisticRegressor R, in_between (log_predict self)) /\
  (forall (cr : Model_GLM.Criterion R) self, In (cr_link cr) [Model_GLM.Identity; Model_GLM.Logit; Model_GLM.Log] -> in_between (glm_predict cr self)).
Proof. exact (conj log_between glm_between). Qed.
Print Assumptions C179_links.
Example C179_links_ex : log_predict line_log (query [0%R]) = Ok [(1 / (1 + exp (- 0)))%R] /\ log_predict line_log (query [4%R]) = Ok [(1 / (1 + exp (- 4)))%R].
Proof. split; apply line_log_at. Qed.

(** Two rows on the same side of a linear support vector machine: no row between them is on the other side. *)
Theorem C179_svm : forall (c : R) self, convex_regions (svm_predict (k_linear c) self).
Proof. exact svm_convex. Qed.
Print Assumptions C179_svm.
Example C179_svm_ex : svm_predict (k_linear 0%R) line_svm (query [0%R]) = Ok [1%R] /\ svm_predict (k_linear 0%R) line_svm (query [5%R]) = Ok [1%R].
Proof. split; apply line_svm_at; lra. Qed.

(** Two rows in the same cluster: every row between them is in that cluster. *)
Theorem C179_kmeans : forall (m : KMeans R) C, km_centroids m = Some C -> mwf C -> convex_regions (km_predict m).
Proof. exact km_convex. Qed.
Print Assumptions C179_kmeans.
Example C179_kmeans_ex : forall m : KMeans R, mwf line_km /\ km_predict (km_set m line_km) (query [3%R]) = Ok [1] /\ km_predict (km_set m line_km) (query [10%R]) = Ok [1] /\
  km_predict (km_set m line_km) (query (mix (1 / 4) [3%R] [10%R])) = Ok [1].
Proof.
  intros m. split; [repeat constructor|]. unfold mix. cbn [map2]. unfold km_predict, km_set. cbn [km_centroids]. unfold find_closest_centroids, query, closest. cbn [rmap mrows mcols length].
  rewrite !line_km_closest by lra. repeat split.
Qed.

(** The same for the Bernoulli and multinomial classifiers, and for the Gaussian one when the classes have the same variances. *)
Theorem C179_naive_bayes : (forall m : NaiveBayes R (Smooth R), convex_regions (nb_predict Bernoulli m)) /\ (forall m : NaiveBayes R (Smooth R), convex_regions (nb_predict Multinomial m)) /\
  (forall (m : NaiveBayes R (Gauss R)) p s, nb_distr m = Some p -> mwf (g_theta p) -> (forall r, In r (mrows (g_sigma p)) -> r = s) -> convex_regions (nb_predict Gaussian m)).
Proof. exact (conj bernoulli_convex (conj multinomial_convex gaussian_convex)). Qed.
Print Assumptions C179_naive_bayes.
Example C179_naive_bayes_ex : nb_distr line_nb = Some {| g_theta := Mat [[0%R]; [4%R]] 1; g_sigma := Mat [[1%R]; [1%R]] 1 |} /\
  nb_predict Gaussian line_nb (query [3%R]) = Ok (Mat [[0%R; 1%R]] 2) /\ nb_predict Gaussian line_nb (query [9%R]) = Ok (Mat [[0%R; 1%R]] 2).
Proof. split; [reflexivity|]. split; apply line_nb_at; lra. Qed.
(** Not without that: classes -1, 1 and -2, 2; the rows 3 and -3 belong to the second, the row half-way between them to the first. *)
Theorem C179_gaussian_splits : forall m : NaiveBayes R (Gauss R), exists m' out, nb_train Gaussian m wide_inputs ex_targets = (m', Ok tt) /\
  nb_predict Gaussian m' (Mat [[3%R]; [(-3)%R]; mix (1 / 2) [3%R] [(-3)%R]] 1) = Ok out /\ mrows out = [[0%R; 1%R]; [0%R; 1%R]; [1%R; 0%R]].
Proof. exact gaussian_split. Qed.
Print Assumptions C179_gaussian_splits.
