(** * C25-C28, C66, C67: DBSCAN ([src/learning/dbscan.rs]) *)
From Coq Require Import List Arith Lia Bool Permutation Reals Lra ZArith.
From Verif Require Import Base Num NumF NumOrd Linalg LinalgR Spec_Calc Model_DBSCAN Spec_KNN Spec_DBSCAN Proof_DBSCAN Proof_DBSCANEx.
Import ListNotations.

(** C25: labels are the density-connected components of the core rows; exact arithmetic. *)
Theorem C25_components : forall (eps : R) mp (data : matrix R), mwf data ->
  exists w k, clustering eps mp data (nrows data) = Some (w, k) /\
    density_labels (nrows data) (near_R data eps) mp (w_clusters w) /\
    (forall i c, nth i (w_clusters w) None = Some c -> c < k) /\ (forall c, c < k -> exists i, nth i (w_clusters w) None = Some c).
Proof. exact clusters_real. Qed.
Print Assumptions C25_components.

(** ... and in binary64, whatever the entries (NaN and infinities included), with the computed distances. *)
Theorem C25_components_binary64 : forall (eps : B64) mp (data : matrix B64),
  exists w k, clustering eps mp data (nrows data) = Some (w, k) /\
    density_labels (nrows data) (fun i j => nltb (edist (nth i (mrows data) []) (nth j (mrows data) [])) eps = true) mp (w_clusters w) /\
    (forall i c, nth i (w_clusters w) None = Some c -> c < k) /\ (forall c, c < k -> exists i, nth i (w_clusters w) None = Some c).
Proof. exact clusters_b64. Qed.
Print Assumptions C25_components_binary64.

Example C25_ex : exists w k, clustering (b64_of_Z 3) 2 (zmat [0; 2; 30; 20; 21]%Z) 5 = Some (w, k) /\
  w_clusters w = [Some 0; Some 0; None; Some 1; Some 1] /\ k = 2.
Proof. exact clusters_ex. Qed.
Example C25_ex_real : mwf (Mat [[0%R]; [1%R]; [5%R]] 1).
Proof. repeat constructor. Qed.

(** C26 as stated fails: rows 0, 2, 4, eps 3, min_points 3. Row 1 is core, row 0 is within eps of it and unlabelled. *)
Theorem C26_refuted_border_row : exists w k, clustering (b64_of_Z 3) 3 border_data 3 = Some (w, k) /\
  w_clusters w = [None; Some 0; None] /\
  nltb (edist (nth 0 (mrows border_data) []) (nth 1 (mrows border_data) [])) (b64_of_Z 3) = true.
Proof. exact border_witness. Qed.
Print Assumptions C26_refuted_border_row.

(** C66: no row that is not core is ever labelled. *)
Theorem C66_border_rows_are_noise : forall (eps : B64) mp (data : matrix B64) w k fuel i, nrows data <= fuel ->
  clustering eps mp data fuel = Some (w, k) -> i < nrows data ->
  ~ core (nrows data) (fun i j => nltb (edist (nth i (mrows data) []) (nth j (mrows data) [])) eps = true) mp i ->
  nth i (w_clusters w) None = None.
Proof. exact border_unlabelled. Qed.
Print Assumptions C66_border_rows_are_noise.
Example C66_ex : exists w k, clustering (b64_of_Z 3) 3 border_data (nrows border_data) = Some (w, k) /\ nth 0 (w_clusters w) None = None.
Proof. destruct border_witness as (w & k & A & B & _). exists w, k. rewrite B. split; auto. Qed.

(** C27: [nrows] nested calls are enough, and every row has its neighbourhood computed exactly once. *)
Theorem C27_each_row_visited_once : forall (eps : B64) mp (data : matrix B64) fuel, nrows data <= fuel ->
  exists w k, clustering eps mp data fuel = Some (w, k) /\ Permutation (w_queries w) (seq 0 (nrows data)).
Proof. exact visits_each_once. Qed.
Print Assumptions C27_each_row_visited_once.
Example C27_ex : nrows (zmat [0; 2; 30; 20; 21]%Z) <= 5.
Proof. cbn. lia. Qed.

(** C28 as stated fails after: predict mode on, train on 0, 10, mode off, train on 50, 60, mode on.
    Row 0 gets the label of row 50 although every row of the last training set is further than eps away. *)
Theorem C28_refuted_stale_rows : exists m, db_run model0 (stale [50; 60]%Z) = Some m /\ dbscan_predict m (zmat [0]%Z) = Ok [Some 0] /\
  nltb (edist [b64_of_Z 0] [b64_of_Z 50]) (db_eps m) = false /\ nltb (edist [b64_of_Z 0] [b64_of_Z 60]) (db_eps m) = false.
Proof. exact stale_label. Qed.
Print Assumptions C28_refuted_stale_rows.
(** With a smaller second training set the same history makes predict panic. *)
Theorem C28_refuted_stale_panic : exists m, db_run model0 (stale [50]%Z) = Some m /\ dbscan_predict m (zmat [10]%Z) = Panic.
Proof. exact stale_panic. Qed.
Print Assumptions C28_refuted_stale_panic.
Example C28_ex : dbscan_new (b64_of_Z 1) 1 = Ok model0.
Proof. exact model0_new. Qed.

(** C67: it holds when predict mode was on at the last train call, whatever came before. *)
Theorem C67_nearest_training_row : forall (m0 m1 : DBSCAN B64) (h : list (db_op B64)) data bs test,
  db_run m0 h = Some m1 -> db_predictive m1 = true -> last bs true = true -> 0 < nrows data ->
  (forall row i, In row (mrows test) -> i < nrows data -> nnan (edist row (nth i (mrows data) [])) = false) ->
  exists m lab out, db_run m0 (h ++ OpTrain data :: map OpPredictive bs) = Some m /\ db_clusters m = Some lab /\
    density_labels (nrows data) (fun i j => nltb (edist (nth i (mrows data) []) (nth j (mrows data) [])) (db_eps m1) = true) (db_min_points m1) lab /\
    dbscan_predict m test = Ok out /\
    Forall2 (fun row l => nearest_label (nrows data) (fun i => edist row (nth i (mrows data) [])) (db_eps m1) lab l) (mrows test) out.
Proof. exact predict_history. Qed.
Print Assumptions C67_nearest_training_row.
Theorem C67_errors : forall (m : DBSCAN B64) test,
  (db_predictive m = false -> dbscan_predict m test = Err InvalidState) /\
  (db_predictive m = true -> db_clusters m = None \/ db_cluster_data m = None -> dbscan_predict m test = Err UntrainedModel).
Proof. exact predict_errors. Qed.
Print Assumptions C67_errors.
Example C67_ex : exists m1, db_run model0 [OpTrain (zmat [7]%Z); OpPredictive true] = Some m1 /\ db_predictive m1 = true /\
  last [false; true] true = true /\ 0 < nrows (zmat [0; 10]%Z) /\
  forall row i, In row (mrows (zmat [3]%Z)) -> i < nrows (zmat [0; 10]%Z) -> nnan (edist row (nth i (mrows (zmat [0; 10]%Z)) [])) = false.
Proof. exact history_ex. Qed.
(** Turning predict mode on after training is an error, not a wrong answer. *)
Example C67_ex_late : exists m, db_run model0 [OpTrain (zmat [0; 10]%Z); OpPredictive true] = Some m /\ dbscan_predict m (zmat [0]%Z) = Err UntrainedModel.
Proof. exact late_predictive. Qed.
