(** * C198: DBSCAN at the ends of its parameter ranges ([src/learning/dbscan.rs]) *)
From Coq Require Import List Arith Reals Lra Lia.
From Verif Require Import Base Num Linalg Model_DBSCAN Spec_KNN Proof_DBEnds.
Import ListNotations.

(** C198: if all rows are closer to each other than eps, and there are at least min_points of them, they form one cluster. *)
Theorem C198_one_cluster : forall (m : DBSCAN R) (data : matrix R), mwf data -> db_min_points m <= nrows data ->
  (forall r r', In r (mrows data) -> In r' (mrows data) -> (euclid (mcols data) r r' < db_eps m)%R) ->
  exists m1, dbscan_train (nrows data) m data = Some m1 /\ db_clusters m1 = Some (repeat (Some 0) (nrows data)).
Proof. exact one_cluster. Qed.
Print Assumptions C198_one_cluster.
Example C198_one_cluster_ex : mwf ends_data /\ db_min_points (ends_model 10 2) <= nrows ends_data /\
  (forall r r', In r (mrows ends_data) -> In r' (mrows ends_data) -> (euclid (mcols ends_data) r r' < db_eps (ends_model 10 2))%R).
Proof. destruct ends_case as (A & B & C & _). exact (conj A (conj B C)). Qed.

(** C198: with fewer than min_points rows, or with eps not positive and min_points positive, every row is noise. *)
Theorem C198_only_noise : forall (m : DBSCAN R) (data : matrix R), mwf data -> nrows data < db_min_points m \/ (0 < db_min_points m /\ (db_eps m <= 0)%R) ->
  exists m1, dbscan_train (nrows data) m data = Some m1 /\ db_clusters m1 = Some (repeat None (nrows data)).
Proof. exact only_noise. Qed.
Print Assumptions C198_only_noise.
Example C198_only_noise_ex : mwf ends_data /\ nrows ends_data < db_min_points (ends_model 10 4) /\ 0 < db_min_points (ends_model (-1) 1) /\ (db_eps (ends_model (-1) 1) <= 0)%R.
Proof. split; [exact (proj1 ends_case)|]. cbn. split; [lia|]. split; [lia|lra]. Qed.

(** C198: if no two rows are closer than eps and min_points is at most one, every row is its own cluster, numbered in order. *)
Theorem C198_own_clusters : forall (m : DBSCAN R) (data : matrix R), mwf data -> db_min_points m <= 1 -> (0 < db_eps m)%R ->
  (forall i j, i < nrows data -> j < nrows data -> i <> j -> (db_eps m <= euclid (mcols data) (nth i (mrows data) []) (nth j (mrows data) []))%R) ->
  exists m1, dbscan_train (nrows data) m data = Some m1 /\ db_clusters m1 = Some (map Some (seq 0 (nrows data))).
Proof. exact own_clusters. Qed.
Print Assumptions C198_own_clusters.
Example C198_own_clusters_ex : mwf ends_data /\ db_min_points (ends_model 3 1) <= 1 /\ (0 < db_eps (ends_model 3 1))%R /\
  (forall i j, i < nrows ends_data -> j < nrows ends_data -> i <> j -> (db_eps (ends_model 3 1) <= euclid (mcols ends_data) (nth i (mrows ends_data) []) (nth j (mrows ends_data) []))%R).
Proof. destruct ends_case as (A & _ & _ & D). split; [exact A|]. split; [cbn; lia|]. split; [cbn; lra|exact D]. Qed.
