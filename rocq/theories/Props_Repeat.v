(** * C180: giving every sample several times ([src/learning/lin_reg.rs], [logistic_reg.rs], [k_means.rs], [src/data/transforms], [src/analysis/score.rs]) *)
From Coq Require Import List Arith Lia Permutation Reals Lra.
From Verif Require Import Base Num NumX NumFn Linalg Model_Cost Model_Regression Model_KMeans Model_Transforms Model_Score Spec_Order Spec_Equiv Proof_Repeat.
Import ListNotations.

(** Iterative training, exact arithmetic; [l'] holds every sample of [l] [k] times, in any order. *)
Theorem C180_linear : forall self w k (l l' : list (list R * R)), 0 < k -> Permutation l' (times k l) ->
  lr_train_with_optimization self (rows_of w l') (targets_of l') = lr_train_with_optimization self (rows_of w l) (targets_of l).
Proof. exact lr_gd_times. Qed.
Print Assumptions C180_linear.
Theorem C180_logistic : forall optimize self w k (l l' : list (list R * R)), 0 < k -> Permutation l' (times k l) ->
  log_train optimize self (rows_of w l') (targets_of l') = log_train optimize self (rows_of w l) (targets_of l).
Proof. exact log_train_times. Qed.
Print Assumptions C180_logistic.
(** k-means from the same initial centroids: the stop test compares sums over the rows, so it is [k] times as strict on the repeated data. *)
Theorem C180_kmeans : forall (tol : R) init m w k l l', 0 < k -> l <> [] -> km_k m <= length l -> Permutation l' (times k l) ->
  km_train (INR k * tol)%R init m (Mat l' w) = km_train tol init m (Mat l w).
Proof. exact km_times. Qed.
Print Assumptions C180_kmeans.
(** Min-max scaling, whatever the entries. *)
Theorem C180_minmax : forall (a b : X) w k l l', 0 < k -> Permutation l' (times k l) -> minmax_fit a b (Mat l' w) = minmax_fit a b (Mat l w).
Proof. exact minmax_times. Qed.
Print Assumptions C180_minmax.
(** Standardization does notice: the means stay, the variances shrink by the factor [k (n - 1) / (k n - 1)]. *)
Theorem C180_standardizer : forall (a b : R) w k l l', 0 < k -> 2 <= length l -> Permutation l' (times k l) ->
  exists st, standardizer_fit a b (Mat l w) = Ok st /\
    standardizer_fit a b (Mat l' w) = Ok {| std_means := std_means st;
      std_variances := map (fun v => (v * (INR k * (INR (length l) - 1) / (INR k * INR (length l) - 1)))%R) (std_variances st); std_mean := a; std_stdev := b |}.
Proof. exact standardizer_times. Qed.
Print Assumptions C180_standardizer.
(** Scores. *)
Theorem C180_scores : forall (T : Type) (eqb : T -> T -> bool), (forall x y, eqb x y = true <-> x = y) -> forall zero one : T, zero <> one ->
  forall k (os ts : list T), 0 < k -> length os = length ts ->
  accuracy (F := X) eqb (times k os) (times k ts) = accuracy eqb os ts /\ precision (F := X) eqb zero one (times k os) (times k ts) = precision eqb zero one os ts /\
  recall (F := X) eqb zero one (times k os) (times k ts) = recall eqb zero one os ts /\ f1 (F := X) eqb zero one (times k os) (times k ts) = f1 eqb zero one os ts.
Proof. exact @scores_times. Qed.
Print Assumptions C180_scores.
Theorem C180_mean_squared_error : forall w k (l : list (list R * list R)), 0 < k ->
  neg_mean_squared_error (Mat (map fst (times k l)) w) (Mat (map snd (times k l)) w) = neg_mean_squared_error (Mat (map fst l) w) (Mat (map snd l) w).
Proof. exact nmse_times. Qed.
Print Assumptions C180_mean_squared_error.
Example C180_ex : let l := [([1%R], 2%R); ([3%R], 4%R)] in Permutation [([1%R], 2%R); ([1%R], 2%R); ([3%R], 4%R); ([3%R], 4%R)] (times 2 l).
Proof. cbn. apply perm_skip, perm_swap. Qed.
Example C180_ex_scores : times 3 [1; 0] = [1; 0; 1; 0; 1; 0] /\ 0 < 3.
Proof. split; [reflexivity|lia]. Qed.
