(** * C108-C112: clusterings and neighbours under changes of radius, rounding and geometry *)
From Coq Require Import List Arith Lia Bool Permutation Reals Lra ZArith.
From Flocq Require Import Core BinarySingleNaN.
From Verif Require Import Base Num NumF Linalg Model_KNN Model_History Model_DBSCAN Spec_KNN Spec_KNN2 Spec_DBSCAN2 Spec_B64
  Proof_KNNEx Proof_DBSCAN2 Proof_KNN2 Proof_Similar Proof_GeomEx.
Import ListNotations.
Local Open Scope nat_scope.

(** C108: a larger eps or a smaller min_points unlabels no row and separates no cluster; binary64, any entries. *)
Theorem C108_larger_eps_or_fewer_points : forall (m m' m1 m1' : DBSCAN B64) (data : matrix B64) lab lab',
  nnan (db_eps m') = false -> nltb (db_eps m') (db_eps m) = false -> db_min_points m' <= db_min_points m ->
  dbscan_train (nrows data) m data = Some m1 -> dbscan_train (nrows data) m' data = Some m1' ->
  db_clusters m1 = Some lab -> db_clusters m1' = Some lab' -> refines lab lab'.
Proof. exact train_monotone. Qed.
Print Assumptions C108_larger_eps_or_fewer_points.
Example C108_ex : nnan (db_eps ex_m') = false /\ nltb (db_eps ex_m') (db_eps ex_m) = false /\
  (exists m1, dbscan_train (nrows ex_data) ex_m ex_data = Some m1 /\ db_clusters m1 = Some [Some 0; Some 0; None; Some 1; Some 1]%nat) /\
  (exists m1, dbscan_train (nrows ex_data) ex_m' ex_data = Some m1 /\ db_clusters m1 = Some [Some 0; Some 0; Some 1; Some 1; Some 1]%nat).
Proof. exact mono_ex. Qed.

(** C109: the clustering computed in binary64 lies between the exact clusterings for slightly smaller and slightly larger eps ... *)
Theorem C109_above_smaller_eps : forall (data : matrix B64) (m m1 : DBSCAN B64) (me me1 : DBSCAN R) lab labe,
  mwf data -> moderate_dim (mcols data) -> (forall r, In r (mrows data) -> moderate r) -> is_finite (db_eps m) = true -> db_min_points me = db_min_points m ->
  dbscan_train (nrows data) m data = Some m1 -> db_clusters m1 = Some lab ->
  dbscan_train (nrows data) me (real_mat data) = Some me1 -> db_clusters me1 = Some labe ->
  (tol_up (db_eps me) <= B2R (db_eps m))%R -> refines labe lab.
Proof. exact sandwich_below. Qed.
Print Assumptions C109_above_smaller_eps.
Theorem C109_below_larger_eps : forall (data : matrix B64) (m m1 : DBSCAN B64) (me me1 : DBSCAN R) lab labe,
  mwf data -> moderate_dim (mcols data) -> (forall r, In r (mrows data) -> moderate r) -> is_finite (db_eps m) = true -> db_min_points me = db_min_points m ->
  dbscan_train (nrows data) m data = Some m1 -> db_clusters m1 = Some lab ->
  dbscan_train (nrows data) me (real_mat data) = Some me1 -> db_clusters me1 = Some labe ->
  (B2R (db_eps m) <= tol_down (db_eps me))%R -> refines lab labe.
Proof. exact sandwich_above. Qed.
Print Assumptions C109_below_larger_eps.
(** ... and is the exact one when no distance of two rows is near eps. *)
Theorem C109_exact_when_separated : forall (data : matrix B64) (m m1 : DBSCAN B64) (me me1 : DBSCAN R) lab labe,
  mwf data -> moderate_dim (mcols data) -> (forall r, In r (mrows data) -> moderate r) -> is_finite (db_eps m) = true -> db_min_points me = db_min_points m ->
  dbscan_train (nrows data) m data = Some m1 -> db_clusters m1 = Some lab ->
  dbscan_train (nrows data) me (real_mat data) = Some me1 -> db_clusters me1 = Some labe ->
  forall lo hi, (lo <= db_eps me <= hi)%R -> (tol_up lo <= B2R (db_eps m) <= tol_down hi)%R ->
  (forall i j, i < nrows data -> j < nrows data ->
     let d := true_dist (mcols data) (nth i (mrows data) []) (nth j (mrows data) []) in (d < lo \/ hi <= d)%R) ->
  lab = labe.
Proof. exact sandwich_gap. Qed.
Print Assumptions C109_exact_when_separated.
Example C109_ex : mwf ex_data /\ moderate_dim (mcols ex_data) /\ (forall r, In r (mrows ex_data) -> moderate r) /\ is_finite (db_eps ex_m) = true /\
  (tol_up (29 / 10) <= B2R (db_eps ex_m) <= tol_down (31 / 10))%R.
Proof. exact tol_ex. Qed.

(** C110: multiplying all distances by one factor (and eps with them) changes no label and no neighbour. *)
Theorem C110_dbscan : forall (m m' m1 m1' : DBSCAN R) (data : matrix R) n' s T lab lab', mwf data -> mwf (map_rows n' T data) -> (0 < s)%R ->
  similarity (mcols data) n' s T (mrows data) -> db_eps m' = (s * db_eps m)%R -> db_min_points m' = db_min_points m ->
  dbscan_train (nrows data) m data = Some m1 -> dbscan_train (nrows data) m' (map_rows n' T data) = Some m1' ->
  db_clusters m1 = Some lab -> db_clusters m1' = Some lab' -> lab' = lab.
Proof. exact train_similar. Qed.
Print Assumptions C110_dbscan.
Theorem C110_brute_force : forall (data : matrix R) (point : list R) n' s T k idx ds,
  mwf data -> length point = mcols data -> mwf (map_rows n' T data) -> length (T point) = n' ->
  (0 < s)%R -> similarity (mcols data) n' s T (point :: mrows data) -> k <= nrows data ->
  brute_search (Some data) point k = Ok (idx, ds) -> brute_search (Some (map_rows n' T data)) (T point) k = Ok (idx, map (Rmult s) ds).
Proof. exact brute_similar_ok. Qed.
Print Assumptions C110_brute_force.
Theorem C110_classifier : forall (c c' : KNNClassifier (option (matrix R))) (data test : matrix R) n' s T, mwf data -> mwf test -> mcols test = mcols data ->
  mwf (map_rows n' T data) -> mwf (map_rows n' T test) -> (0 < s)%R -> similarity (mcols data) n' s T (mrows test ++ mrows data) ->
  knn_searcher _ c = Some data -> knn_searcher _ c' = Some (map_rows n' T data) -> knn_k _ c' = knn_k _ c -> knn_target _ c' = knn_target _ c ->
  knn_k _ c <= nrows data ->
  knn_predict (brute_search (F := R)) c' (map_rows n' T test) = knn_predict (brute_search (F := R)) c test.
Proof. exact classifier_similar. Qed.
Print Assumptions C110_classifier.
(** Among these maps: translations, scalings (also by negative factors), and other orders of the features. *)
Theorem C110_similarities : forall (n : nat) (pts : list (list R)), (forall a, In a pts -> length a = n) ->
  (forall t, length t = n -> similarity n n 1 (moved t) pts) /\ (forall s, similarity n n (Rabs s) (scaled s) pts) /\
  (forall p, Permutation p (seq 0 n) -> similarity n n 1 (reordered p) pts).
Proof. exact (fun n pts L => conj (fun t Lt => move_similar n t pts Lt L) (conj (fun s => scale_similar n s pts) (fun p P => reorder_similar n p pts P))). Qed.
Print Assumptions C110_similarities.
Example C110_ex : let data := Mat [[1%R; 2%R]; [3%R; 4%R]; [0%R; 0%R]] 2 in
  mwf data /\ mwf (map_rows 2 (scaled (-3)) data) /\ (0 < Rabs (-3))%R /\ Permutation [1; 0] (seq 0 2) /\
  (forall a, In a (mrows data) -> length a = 2) /\ 2 <= nrows data.
Proof. split; [repeat constructor|]. split; [repeat constructor|]. split; [apply Rabs_pos_lt; lra|]. split; [constructor|]. split; [intros a Ha; cbn in Ha; intuition (subst; reflexivity)|cbn; lia]. Qed.

(** C111: with one neighbour, each training row is answered with the target of a row equal to it. *)
Theorem C111_brute_force : forall (s0 : option (matrix R)) (t0 : option (list nat)) (data : matrix R) targets,
  mwf data -> length targets = nrows data -> 0 < nrows data ->
  exists c' out, knn_train brute_builder {| knn_k := 1; knn_searcher := s0; knn_target := t0 |} data targets = (c', Ok tt) /\
    knn_predict (brute_search (F := R)) c' data = Ok out /\ recalls data targets out.
Proof. exact (fun s0 t0 data targets => brute_recalls 1 s0 t0 data targets eq_refl). Qed.
Print Assumptions C111_brute_force.
Theorem C111_kdtree : forall (c : KNNClassifier (option (node (F := R) (list R * list R) * matrix R))) (data : matrix R) targets fuel leafsize t,
  mwf data -> 0 < nrows data -> length targets = nrows data -> tree_build kd_split fuel leafsize data = Some (Ok t) ->
  knn_k _ c = 1 -> knn_searcher _ c = Some (t, data) -> knn_target _ c = Some targets ->
  exists out, knn_predict (tree_search kd_split) c data = Ok out /\ recalls data targets out.
Proof. exact kd_recalls. Qed.
Print Assumptions C111_kdtree.
Theorem C111_balltree : forall (c : KNNClassifier (option (node (F := R) (list R * R) * matrix R))) (data : matrix R) targets fuel leafsize t,
  mwf data -> 0 < nrows data -> length targets = nrows data -> tree_build ball_split fuel leafsize data = Some (Ok t) ->
  knn_k _ c = 1 -> knn_searcher _ c = Some (t, data) -> knn_target _ c = Some targets ->
  exists out, knn_predict (tree_search ball_split) c data = Ok out /\ recalls data targets out.
Proof. exact ball_recalls. Qed.
Print Assumptions C111_balltree.
(** In binary64 a row closer than 2^-524 may be taken for an equal one. *)
Theorem C111_brute_force_binary64 : forall (s0 : option (matrix B64)) (t0 : option (list nat)) (data : matrix B64) targets,
  mwf data -> moderate_dim (mcols data) -> (forall r, In r (mrows data) -> moderate r) -> length targets = nrows data -> 0 < nrows data ->
  exists c' out, knn_train brute_builder {| knn_k := 1; knn_searcher := s0; knn_target := t0 |} data targets = (c', Ok tt) /\
    knn_predict (brute_search (F := B64)) c' data = Ok out /\ nearly_recalls data targets out.
Proof. exact brute_nearly. Qed.
Print Assumptions C111_brute_force_binary64.
Theorem C111_kdtree_binary64 : forall (c : KNNClassifier (option (node (F := B64) (list B64 * list B64) * matrix B64))) (data : matrix B64) targets fuel leafsize t,
  mwf data -> moderate_dim (mcols data) -> (forall r, In r (mrows data) -> moderate r) -> 0 < nrows data -> length targets = nrows data ->
  tree_build kd_split fuel leafsize data = Some (Ok t) ->
  knn_k _ c = 1 -> knn_searcher _ c = Some (t, data) -> knn_target _ c = Some targets ->
  exists out, knn_predict (tree_search kd_split) c data = Ok out /\ nearly_recalls data targets out.
Proof. exact kd_nearly. Qed.
Print Assumptions C111_kdtree_binary64.
Example C111_ex : mwf real_points /\ 0 < nrows real_points /\
  (exists fuel t, tree_build kd_split fuel 2 real_points = Some (Ok t) /\ ~ (exists c, t = Leaf c)) /\
  (exists fuel t, tree_build ball_split fuel 2 real_points = Some (Ok t) /\ ~ (exists c, t = Leaf c)).
Proof. exact (conj (proj1 (proj2 real_ex)) (conj (proj1 (proj2 (proj2 real_ex))) (conj real_ex_kd real_ex_ball))). Qed.

(** C112: training recurses at most once per row, and on rows in a line that deep. *)
Theorem C112_depth_enough : forall (eps : B64) mp (data : matrix B64) fuel, nrows data <= fuel -> exists w k, clustering eps mp data fuel = Some (w, k).
Proof. exact depth_enough. Qed.
Print Assumptions C112_depth_enough.
Theorem C112_depth_reached : forall n fuel, 2 <= n -> fuel < n -> mwf (line n) /\ nrows (line n) = n /\ clustering (3 / 2)%R 2 (line n) fuel = None.
Proof. exact depth_reached. Qed.
Print Assumptions C112_depth_reached.
Example C112_ex : nrows (line 1000) = 1000 /\ 2 <= 1000 /\ 999 < 1000.
Proof. exact (conj (line_rows 1000) (conj (le_n_S _ _ (le_n_S _ _ (Nat.le_0_l _))) (le_n _))). Qed.
