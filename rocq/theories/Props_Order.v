(** * C99: the order of the training rows does not matter *)
From Coq Require Import List Arith Lia Bool Permutation Reals Lra FinFun.
From Verif Require Import Base Num NumX NumF NumFn Linalg Model_Cost Model_Regression Model_KMeans Model_NaiveBayes Model_Transforms Model_Score
  Model_DBSCAN Model_Confusion Spec_Confusion Spec_Order Proof_Order Proof_Order2 Proof_Order3.
From Verif Require Model_GLM.
Import ListNotations.

(** Regression, in arithmetic with infinities and NaN. *)
Theorem C99_linear : forall (solve : matrix X -> list X -> res (list X)) self w (l l' : list (list X * X)), Permutation l l' ->
  lr_train solve self (rows_of w l) (targets_of l) = lr_train solve self (rows_of w l') (targets_of l') /\
  lr_train_with_optimization self (rows_of w l) (targets_of l) = lr_train_with_optimization self (rows_of w l') (targets_of l').
Proof. exact (fun solve self w l l' P => conj (lr_train_order solve self w l l' P) (lr_gd_order self w l l' P)). Qed.
Print Assumptions C99_linear.
(** Any optimiser that sees the data only through cost and gradient (gradient descent, conjugate gradients). *)
Theorem C99_logistic : forall optimize self w (l l' : list (list X * X)), Permutation l l' ->
  log_train optimize self (rows_of w l) (targets_of l) = log_train optimize self (rows_of w l') (targets_of l').
Proof. exact log_train_order. Qed.
Print Assumptions C99_logistic.
Theorem C99_glm : forall (cr : Model_GLM.Criterion R), cr = Model_GLM.Bernoulli \/ cr = Model_GLM.Poisson \/ cr = Model_GLM.Normal ->
  forall inverse self w (l l' : list (list R * R)), Permutation l l' ->
  Model_GLM.glm_train inverse cr self (rows_of w l) (targets_of l) = Model_GLM.glm_train inverse cr self (rows_of w l') (targets_of l').
Proof. exact glm_three_order. Qed.
Print Assumptions C99_glm.
(** Naive Bayes: the same answer, and after success the same model. *)
Theorem C99_naive_bayes : forall w k (l l' : list (list X * list X)), Permutation l l' ->
  (forall m, snd (nb_train Gaussian m (rows_of w l) (target_rows k l)) = snd (nb_train Gaussian m (rows_of w l') (target_rows k l')) /\
     (snd (nb_train Gaussian m (rows_of w l) (target_rows k l)) = Ok tt ->
      nb_train Gaussian m (rows_of w l) (target_rows k l) = nb_train Gaussian m (rows_of w l') (target_rows k l'))) /\
  (forall m, snd (nb_train Bernoulli m (rows_of w l) (target_rows k l)) = snd (nb_train Bernoulli m (rows_of w l') (target_rows k l')) /\
     (snd (nb_train Bernoulli m (rows_of w l) (target_rows k l)) = Ok tt ->
      nb_train Bernoulli m (rows_of w l) (target_rows k l) = nb_train Bernoulli m (rows_of w l') (target_rows k l'))) /\
  (forall m, snd (nb_train Multinomial m (rows_of w l) (target_rows k l)) = snd (nb_train Multinomial m (rows_of w l') (target_rows k l')) /\
     (snd (nb_train Multinomial m (rows_of w l) (target_rows k l)) = Ok tt ->
      nb_train Multinomial m (rows_of w l) (target_rows k l) = nb_train Multinomial m (rows_of w l') (target_rows k l'))).
Proof. exact nb_three_order. Qed.
Print Assumptions C99_naive_bayes.
(** k-means from the same initial centroids. *)
Theorem C99_kmeans : forall tol init (m : KMeans X) w l l', Permutation l l' -> km_train tol init m (Mat l w) = km_train tol init m (Mat l' w).
Proof. exact km_train_order. Qed.
Print Assumptions C99_kmeans.
Theorem C99_transforms : forall (a b : X) w l l', Permutation l l' ->
  minmax_fit a b (Mat l w) = minmax_fit a b (Mat l' w) /\ standardizer_fit a b (Mat l w) = standardizer_fit a b (Mat l' w).
Proof. exact (fun a b w l l' P => conj (minmax_order a b w l l' P) (standardizer_order a b w l l' P)). Qed.
Print Assumptions C99_transforms.
(** DBSCAN in binary64, whatever the entries: row [i] of the reordered data is row [f i]; the clusters are the same up to
    their numbers, the noise rows are the same. *)
Theorem C99_dbscan : forall (eps : B64) mp (data data' : matrix B64) f, nrows data' = nrows data ->
  bFun (nrows data) f -> bInjective (nrows data) f -> (forall i, i < nrows data -> nth i (mrows data') [] = nth (f i) (mrows data) []) ->
  exists w k w' k', clustering eps mp data (nrows data) = Some (w, k) /\ clustering eps mp data' (nrows data') = Some (w', k') /\
    (forall i, i < nrows data -> (nth i (w_clusters w') None = None <-> nth (f i) (w_clusters w) None = None)) /\
    (forall i j, i < nrows data -> j < nrows data ->
      (nth i (w_clusters w') None = nth j (w_clusters w') None <-> nth (f i) (w_clusters w) None = nth (f j) (w_clusters w) None)).
Proof. exact dbscan_order. Qed.
Print Assumptions C99_dbscan.
(** Scores of reordered pairs (output, target). *)
Theorem C99_scores : forall (T : Type) (leb eqb : T -> T -> bool) (l l' : list (T * T)), Permutation l l' ->
  accuracy (F := B64) eqb (map fst l) (map snd l) = accuracy eqb (map fst l') (map snd l') /\
  (decides_eq eqb -> total_order leb -> confusion_matrix leb eqb (map fst l) (map snd l) None = confusion_matrix leb eqb (map fst l') (map snd l') None).
Proof. exact scores_order. Qed.
Print Assumptions C99_scores.
Theorem C99_mean_squared_error : forall w (l l' : list (list X * list X)), Permutation l l' ->
  neg_mean_squared_error (Mat (map fst l) w) (Mat (map snd l) w) = neg_mean_squared_error (Mat (map fst l') w) (Mat (map snd l') w).
Proof. exact nmse_order. Qed.
Print Assumptions C99_mean_squared_error.
Example C99_ex : let l := [([Fin 1; Fin 2], Fin 0); ([Fin 3; Fin 4], Fin 1)] in Permutation l (rev l) /\ l <> rev l.
Proof. cbn. split; [apply perm_swap|]. intros H. injection H as H _ _ _ _ _. lra. Qed.
Example C99_ex_dbscan : let f := fun i => 1 - i in bFun 2 f /\ bInjective 2 f /\ f 0 <> 0.
Proof. repeat split; [intros i H; lia|intros i j H1 H2 E; lia|discriminate]. Qed.
