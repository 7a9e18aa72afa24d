(** * C154: DBSCAN asked about the rows it was trained on *)
From Coq Require Import List Arith Reals.
From Verif Require Import Base Num NumF Linalg Model_DBSCAN Spec_DBSCAN Spec_B64 Proof_DBSCANEx Proof_OwnRows.
Import ListNotations.

Theorem C154_own_rows : forall (m m1 : DBSCAN R) data fuel, mwf data -> 0 < nrows data -> nrows data <= fuel -> (0 < db_eps m)%R -> db_predictive m = true ->
  dbscan_train fuel m data = Some m1 -> exists lab, db_clusters m1 = Some lab /\ length lab = nrows data /\ dbscan_predict m1 data = Ok lab.
Proof. exact own_rows_R. Qed.
Print Assumptions C154_own_rows.
Example C154_ex : let data : matrix R := Mat [[0%R]; [5%R]; [0%R]] 1 in mwf data /\ 0 < nrows data /\
  exists m1, dbscan_train (nrows data) {| db_eps := 1%R; db_min_points := 2; db_clusters := None; db_predictive := true; db_cluster_data := None |} data = Some m1.
Proof. exact own_ex_R. Qed.

Theorem C154_own_rows_binary64 : forall (m m1 : DBSCAN B64) data fuel, 0 < nrows data -> nrows data <= fuel -> nltb nzero (db_eps m) = true -> db_predictive m = true ->
  Forall finite_vec (mrows data) ->
  (forall i j, i < nrows data -> j < nrows data -> nnan (edist (nth i (mrows data) []) (nth j (mrows data) [])) = false) ->
  (forall i j, i < nrows data -> j < nrows data -> nltb nzero (edist (nth i (mrows data) []) (nth j (mrows data) [])) = false ->
     nth i (mrows data) [] = nth j (mrows data) []) ->
  dbscan_train fuel m data = Some m1 -> exists lab, db_clusters m1 = Some lab /\ length lab = nrows data /\ dbscan_predict m1 data = Ok lab.
Proof. exact own_rows_B64. Qed.
Print Assumptions C154_own_rows_binary64.
Example C154_binary64_ex : exists m1, dbscan_train (nrows own_data) own_model own_data = Some m1 /\ 0 < nrows own_data /\ nltb nzero (db_eps own_model) = true /\ db_predictive own_model = true /\
  Forall finite_vec (mrows own_data) /\
  (forall i j, i < nrows own_data -> j < nrows own_data -> nnan (edist (nth i (mrows own_data) []) (nth j (mrows own_data) [])) = false) /\
  (forall i j, i < nrows own_data -> j < nrows own_data -> nltb nzero (edist (nth i (mrows own_data) []) (nth j (mrows own_data) [])) = false ->
     nth i (mrows own_data) [] = nth j (mrows own_data) []) /\
  db_clusters m1 = Some [Some 0; None; Some 0; None].
Proof. exact own_ex. Qed.

(** The last condition is needed: three rows so close that squares of their differences are rounded to 0 get other labels from predict. *)
Theorem C154_rounding_matters : exists m1, dbscan_train 3 close_model close_data = Some m1 /\ nltb nzero (db_eps close_model) = true /\
  Forall finite_vec (mrows close_data) /\ db_clusters m1 = Some [Some 0; None; None] /\ dbscan_predict m1 close_data = Ok [Some 0; Some 0; Some 0].
Proof. exact close_rows. Qed.
Print Assumptions C154_rounding_matters.
