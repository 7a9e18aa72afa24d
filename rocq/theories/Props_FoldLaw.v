(** * C158: cross validation treats all samples alike ([src/analysis/cross_validation.rs]) *)
From Coq Require Import List Arith Bool Permutation Reals.
From Verif Require Import Base BaseLemmas Num NumFn Linalg Model_Rand Model_CrossVal Spec_CrossVal Model_Score Model_Cost Spec_FoldLaw Proof_FoldLaw Proof_FoldLawEx.
Import ListNotations.

(** C158: validation is training, predicting and scoring over splits that are drawn without looking at the data. *)
Theorem C158_splits_ignore_data : forall (M X Y F : Type)
  (train : M -> list X -> list Y -> res unit * M) (predict : M -> list X -> res (list Y)) (score : list Y -> list Y -> res F)
  (inputs : list X) (targets : list Y) (k : nat) (m : M) (f : res (list F) * M -> R),
  length inputs = length targets ->
  expect (k_fold_validate train predict score m inputs targets k) f =
  expect (random_folds (length inputs) k) (fun ps => f (kfold_loop train predict score inputs targets ps m)).
Proof. exact (fun M X Y F train predict score inputs targets k m f => same_splits train predict score inputs targets k m f). Qed.
Print Assumptions C158_splits_ignore_data.
Example C158_splits_ex : length [10; 20; 30]%nat = length [1; 2; 1]%nat.
Proof. reflexivity. Qed.

(** C158: for every position of a split, every way to cut the samples into training and test rows of the right sizes, in
    every order, is equally likely. *)
Theorem C158_splits_equally_likely : forall (n k i : nat) (tr te : list nat), 1 < k <= n -> i < k ->
  Permutation (tr ++ te) (seq 0 n) -> length te = fold_size n k i ->
  prob (random_folds n k) (split_is i tr te) = (/ INR (fact n))%R.
Proof. exact (fun n k i tr te Hk => split_law n k Hk i tr te). Qed.
Print Assumptions C158_splits_equally_likely.
Example C158_splits_likely_ex : prob (random_folds 4 2) (split_is 1 [0; 2] [3; 1]) = (/ 24)%R /\ prob (random_folds 4 2) (split_is 1 [2; 0] [1; 3]) = (/ 24)%R.
Proof. exact split_law_ex. Qed.

(** C158: a split tests each sample with the same probability, its share of the samples. *)
Theorem C158_samples_alike : forall n k i j : nat, 1 < k <= n -> i < k -> j < n ->
  prob (random_folds n k) (tests_sample i j) = (INR (fold_size n k i) / INR n)%R.
Proof. exact (fun n k i j Hk => tested_prob n k Hk i j). Qed.
Print Assumptions C158_samples_alike.
Example C158_samples_ex : prob (random_folds 5 2) (tests_sample 0 3) = (3 / 5)%R /\ prob (random_folds 5 2) (tests_sample 1 3) = (2 / 5)%R.
Proof. exact tested_ex. Qed.

(** C158: with a score that is a mean over samples, the scores weighted by the sizes of the test sets add up to the value of
    one list of answers over all samples, each answer given by a model trained without the sample it answers for. *)
Theorem C158_pooled_scores : forall (M X Y : Type)
  (train : M -> list X -> list Y -> res unit * M) (predict : M -> list X -> res (list Y)) (v : Y -> Y -> R)
  (score : list Y -> list Y -> res R) (inputs : list X) (targets : list Y) (k : nat) (m m' : M) (cs : list R),
  mean_score v score -> outcome (k_fold_validate train predict score m inputs targets k) (Some (Ok cs, m')) ->
  exists ps answers, kfold_partition (length targets) k ps /\ length cs = k /\ held_out train predict inputs targets ps answers /\
    weighted_sum ps cs = paired_sum v answers targets.
Proof. exact (fun M X Y train predict v score inputs targets k m m' cs Hv => pooled train predict v score Hv inputs targets k m cs m'). Qed.
Print Assumptions C158_pooled_scores.
Example C158_pooled_ex : outcome (k_fold_validate min_train min_predict (accuracy (F := R) Nat.eqb) 0 [10; 20; 30] [1; 2; 1] 2)
    (Some (Ok [INR 1 / INR 2; INR 1 / INR 1]%R, 1)) /\
  weighted_sum [([2], [0; 1]); ([0; 1], [2])] [INR 1 / INR 2; INR 1 / INR 1]%R = 2%R /\
  paired_sum (fun o t => if Nat.eqb o t then 1%R else 0%R) [1; 1; 1] [1; 2; 1] = 2%R.
Proof. exact pooled_ex. Qed.

(** C158: if the folds are of equal size, the plain mean of the scores is the mean over all samples. *)
Theorem C158_mean_of_scores : forall (M X Y : Type)
  (train : M -> list X -> list Y -> res unit * M) (predict : M -> list X -> res (list Y)) (v : Y -> Y -> R)
  (score : list Y -> list Y -> res R) (inputs : list X) (targets : list Y) (k : nat) (m m' : M) (cs : list R),
  mean_score v score -> length targets mod k = 0 -> outcome (k_fold_validate train predict score m inputs targets k) (Some (Ok cs, m')) ->
  exists ps answers, kfold_partition (length targets) k ps /\ held_out train predict inputs targets ps answers /\
    (fold_right Rplus 0 cs / INR k = paired_sum v answers targets / INR (length targets))%R.
Proof. exact (fun M X Y train predict v score inputs targets k m m' cs Hv => pooled_mean train predict v score Hv inputs targets k m cs m'). Qed.
Print Assumptions C158_mean_of_scores.
Example C158_mean_ex : length [1; 2; 1; 1] mod 2 = 0 /\
  outcome (k_fold_validate min_train min_predict (accuracy (F := R) Nat.eqb) 0 [10; 20; 30; 40] [1; 2; 1; 1] 2)
    (Some (Ok [INR 1 / INR 2; INR 2 / INR 2]%R, 1)).
Proof. exact pooled_mean_ex. Qed.

(** C158: accuracy, row accuracy and the negative mean squared error are such scores. *)
Theorem C158_library_scores :
  (forall (T : Type) (eqb : T -> T -> bool), mean_score (fun o t => if eqb o t then 1 else 0)%R (accuracy (F := R) eqb)) /\
  mean_score (fun o t => if slice_eqb o t then 1 else 0)%R (row_accuracy (F := R)) /\
  (forall w : nat, mean_score neg_sq_dist (fun o t => neg_mean_squared_error (Mat o w) (Mat t w))).
Proof. exact (conj (@accuracy_mean) (conj row_accuracy_mean nmse_mean)). Qed.
Print Assumptions C158_library_scores.
Example C158_library_ex : accuracy (F := R) Nat.eqb [1; 2; 3] [1; 5; 3] = Ok (INR 2 / INR 3)%R.
Proof. reflexivity. Qed.
