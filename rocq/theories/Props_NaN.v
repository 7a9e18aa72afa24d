(** * C166-C168: rows with missing values (NaN) *)
From Coq Require Import List Arith Bool ZArith.
From Verif Require Import Base Num NumF NumFn Linalg Model_KNN Model_DBSCAN Model_KMeans Model_NaiveBayes Spec_NaiveBayes Proof_SigB64Ex Spec_NaN Proof_NaN Proof_NaNEx
  Proof_NaNBayes Proof_NaNBayesEx.
Import ListNotations.

(** C166: for a search of [k] neighbours, a row with NaN that is not among the first [k] rows is as good as absent. *)
Theorem C166_later_row_ignored : forall (data : matrix B64) x k t, mwf data -> length x = mcols data -> 1 <= k <= t -> t < nrows data ->
  has_nan (nth t (mrows data) []) ->
  brute_search (Some data) x k = renumber t (brute_search (Some (drop_row t data)) x k).
Proof. exact nan_skipped. Qed.
Print Assumptions C166_later_row_ignored.
Example C166_later_row_ignored_ex : mwf gappy /\ nrows gappy = 4 /\ has_nan (nth 1 (mrows gappy) []) /\
  found (brute_search (Some gappy) [b64_of_Z 3] 1) = Some [2].
Proof. exact case_gappy. Qed.

(** C166: with two or more neighbours, NaN in the query or in one of the first [k] rows makes the search panic. *)
Theorem C166_early_row_panics : forall (data : matrix B64) x k i, mwf data -> length x = mcols data -> 2 <= k <= nrows data -> i < k ->
  has_nan x \/ has_nan (nth i (mrows data) []) -> brute_search (Some data) x k = Panic.
Proof. exact nan_panics. Qed.
Print Assumptions C166_early_row_panics.
Example C166_early_row_panics_ex : brute_search (Some gappy) [b64_of_Z 3] 2 = Panic.
Proof. exact case_panics. Qed.

(** C166: with one neighbour, NaN in the query or in row 0 makes row 0 the answer, at distance NaN ... *)
Theorem C166_first_row_wins : forall (data : matrix B64) x, mwf data -> length x = mcols data -> 1 <= nrows data ->
  has_nan x \/ has_nan (nth 0 (mrows data) []) -> exists d, brute_search (Some data) x 1 = Ok ([0], [d]) /\ nnan d = true.
Proof. exact nan_first. Qed.
Print Assumptions C166_first_row_wins.
Example C166_first_row_wins_ex : mwf gap_first /\ nrows gap_first = 4 /\ has_nan (nth 0 (mrows gap_first) []) /\
  found (brute_search (Some gap_first) [b64_of_Z 2] 1) = Some [0].
Proof. exact case_first. Qed.

(** A NaN as the first entry of the first row makes building either tree run forever, whatever
    the other rows. *)
Theorem C166_tree_hangs : forall (data : matrix B64) leafsize, mwf data -> 0 < mcols data -> 0 < nrows data -> leafsize <= nrows data ->
  nnan (nth 0 (nth 0 (mrows data) []) nzero) = true ->
  forall fuel, tree_build kd_split fuel leafsize data = None /\ tree_build ball_split fuel leafsize data = None.
Proof. exact (fun data n W Hc Hn Hl H fuel => conj (nan_tree kd_split data n W Hc Hn Hl H fuel) (nan_tree ball_split data n W Hc Hn Hl H fuel)). Qed.
Print Assumptions C166_tree_hangs.
Example C166_tree_hangs_ex : mwf gap_first /\ 0 < mcols gap_first /\ nnan (nth 0 (nth 0 (mrows gap_first) []) nzero) = true /\
  match tree_build kd_split 10 3 gappy with Some (Ok _) => true | _ => false end = true.
Proof. exact case_tree. Qed.

(** ... so that a classifier with one neighbour trained on such data gives every query the target of row 0. *)
Theorem C166_classifier : forall (data Z : matrix B64) targets s0 t0 l, mwf data -> mwf Z -> mcols Z = mcols data ->
  nrows data = S (length l) -> targets = nth 0 targets 0 :: l -> has_nan (nth 0 (mrows data) []) ->
  let '(m, r) := knn_train (fun _ d => Ok (Some d)) {| knn_k := 1; knn_searcher := s0; knn_target := t0 |} data targets in
  r = Ok tt /\ knn_predict brute_search m Z = Ok (repeat (nth 0 targets 0) (nrows Z)).
Proof. exact nan_classifier. Qed.
Print Assumptions C166_classifier.
Example C166_classifier_ex : mwf gap_first /\ nrows gap_first = 4 /\ has_nan (nth 0 (mrows gap_first) []) /\
  found (brute_search (Some gap_first) [b64_of_Z 2] 1) = Some [0].
Proof. exact case_first. Qed.

(** C166: DBSCAN labels a row with NaN as noise, and gives all other rows the labels they would get without it. *)
Theorem C166_dbscan_row_is_noise : forall (data : matrix B64) eps mp t, mwf data -> 1 <= mp -> t < nrows data -> has_nan (nth t (mrows data) []) ->
  exists w k w' k', clustering eps mp data (nrows data) = Some (w, k) /\ clustering eps mp (drop_row t data) (nrows (drop_row t data)) = Some (w', k') /\
    nth t (w_clusters w) None = None /\ w_clusters w' = map (fun i => nth (past t i) (w_clusters w) None) (seq 0 (nrows data - 1)) /\ k = k'.
Proof. exact nan_dbscan. Qed.
Print Assumptions C166_dbscan_row_is_noise.
Example C166_dbscan_row_is_noise_ex : option_map (fun p => w_clusters (fst p)) (clustering (b64_of_Z 3) 2 gappy 4) = Some [Some 0; None; Some 0; None].
Proof. exact case_dbscan. Qed.

(** C166: DBSCAN's predict answers noise for queries with NaN, and for all queries if the first training row has a NaN. *)
Theorem C166_dbscan_predict : forall (m : DBSCAN B64) data lab Z, db_predictive m = true -> db_cluster_data m = Some data -> db_clusters m = Some lab ->
  mwf data -> mwf Z -> mcols Z = mcols data -> 0 < nrows data ->
  (has_nan (nth 0 (mrows data) []) \/ forall z, In z (mrows Z) -> has_nan z) ->
  dbscan_predict m Z = Ok (repeat None (nrows Z)).
Proof. exact nan_dbscan_predict. Qed.
Print Assumptions C166_dbscan_predict.
Example C166_dbscan_predict_ex : exists m, dbscan_train 4 db0 gap_first = Some m /\
  db_predictive m = true /\ db_cluster_data m = Some gap_first /\ db_clusters m = Some [None; Some 0; Some 0; None].
Proof. exact case_dbscan_predict. Qed.

(** C167: k-means training from any starting centroids on data with a NaN row succeeds, and leaves a model that puts every
    row of every input into cluster 0. *)
Theorem C167_everything_in_cluster_zero : forall tol (m : KMeans B64) (M C0 : matrix B64) t, 1 <= km_k m <= nrows M -> 1 <= km_iters m -> mwf M ->
  t < nrows M -> has_nan (nth t (mrows M) []) -> mwf C0 -> nrows C0 = km_k m -> mcols C0 = mcols M ->
  exists m', km_train tol (Ok C0) m M = (m', Ok tt) /\ forall Z, mwf Z -> mcols Z = mcols M -> km_predict m' Z = Ok (repeat 0 (nrows Z)).
Proof. exact nan_kmeans. Qed.
Print Assumptions C167_everything_in_cluster_zero.
Example C167_everything_in_cluster_zero_ex : mwf starts /\ mwf gappy /\ nrows gappy = 4 /\ has_nan (nth 1 (mrows gappy) []) /\
  km_predict (fst (km_train (b64_dec 1 14) (Ok starts) (km_new 2 3) gappy)) starts = Ok [0; 0] /\ km_predict (km_set (km_new 2 3) starts) starts = Ok [0; 1].
Proof. exact case_kmeans. Qed.

(** C167: the k-means++ initialiser, with two or more clusters, refuses such data, and training then changes nothing. *)
Theorem C167_kmeanspp_refuses : forall tol (m : KMeans B64) (M : matrix B64) t first u us, mwf M -> km_k m <= nrows M -> t < nrows M ->
  has_nan (nth t (mrows M) []) -> first < nrows M ->
  kpp M (km_k m) first (u :: us) = Err InvalidData /\
  km_train tol (match kpp M (km_k m) first (u :: us) with Ok (_, C) => Ok C | Err e => Err e | Panic => Panic end) m M = (m, Err InvalidData).
Proof. exact nan_kpp. Qed.
Print Assumptions C167_kmeanspp_refuses.
Example C167_kmeanspp_refuses_ex : mwf gappy /\ nrows gappy = 4 /\ has_nan (nth 1 (mrows gappy) []) /\
  found (brute_search (Some gappy) [b64_of_Z 3] 1) = Some [2].
Proof. exact case_gappy. Qed.

(** C168: naive Bayes answers class 0 for a query with NaN; if a training row of class 0 has a NaN, class 0 for every query; if one
    of another class has, no query is ever given that class.  Gaussian distribution: *)
Theorem C168_gaussian : forall (Fn : NumFn B64) (m : NaiveBayes B64 (Gauss B64)) inputs targets cs, mwf inputs -> mwf targets ->
  nrows targets = nrows inputs -> 0 < nrows inputs -> labelled targets cs -> (forall c, In c cs -> 2 <= length (class_rows cs c)) ->
  exists m', nb_train Gaussian m inputs targets = (m', Ok tt) /\ nan_outcome Gaussian m' (mcols targets) inputs cs.
Proof. exact @gauss_nan. Qed.
Print Assumptions C168_gaussian.
Example C168_gaussian_ex : mwf gappy /\ mwf gappy_targets /\ nrows gappy_targets = nrows gappy /\ labelled gappy_targets gappy_classes /\
  (forall c, In c gappy_classes -> 2 <= length (class_rows gappy_classes c)) /\ has_nan (nth 1 (mrows gappy) []) /\ nth 1 gappy_classes 0 = 1 /\ @ln_nan libm_ex.
Proof. exact case_bayes. Qed.
(** Bernoulli: *)
Theorem C168_bernoulli : forall (Fn : NumFn B64) (m : NaiveBayes B64 (Smooth B64)) inputs targets cs, ln_nan -> mwf inputs -> mwf targets ->
  nrows targets = nrows inputs -> 0 < nrows inputs -> labelled targets cs ->
  exists m', nb_train Bernoulli m inputs targets = (m', Ok tt) /\ nan_outcome Bernoulli m' (mcols targets) inputs cs.
Proof. exact @bernoulli_nan. Qed.
Print Assumptions C168_bernoulli.
Example C168_bernoulli_ex : mwf gappy /\ mwf gappy_targets /\ nrows gappy_targets = nrows gappy /\ labelled gappy_targets gappy_classes /\
  (forall c, In c gappy_classes -> 2 <= length (class_rows gappy_classes c)) /\ has_nan (nth 1 (mrows gappy) []) /\ nth 1 gappy_classes 0 = 1 /\ @ln_nan libm_ex.
Proof. exact case_bayes. Qed.
(** Multinomial: *)
Theorem C168_multinomial : forall (Fn : NumFn B64) (m : NaiveBayes B64 (Smooth B64)) inputs targets cs, ln_nan -> mwf inputs -> mwf targets ->
  nrows targets = nrows inputs -> 0 < nrows inputs -> labelled targets cs ->
  exists m', nb_train Multinomial m inputs targets = (m', Ok tt) /\ nan_outcome Multinomial m' (mcols targets) inputs cs.
Proof. exact @multinomial_nan. Qed.
Print Assumptions C168_multinomial.
Example C168_multinomial_ex : mwf gappy /\ mwf gappy_targets /\ nrows gappy_targets = nrows gappy /\ labelled gappy_targets gappy_classes /\
  (forall c, In c gappy_classes -> 2 <= length (class_rows gappy_classes c)) /\ has_nan (nth 1 (mrows gappy) []) /\ nth 1 gappy_classes 0 = 1 /\ @ln_nan libm_ex.
Proof. exact case_bayes. Qed.
