(** * C169, C170: neighbours for other k, for more rows, for all rows, and for queries of another width *)
From Coq Require Import List Arith Lia Bool Permutation Reals Lra.
From Verif Require Import Base Num NumF Linalg LinalgR Spec_Calc Model_KNN Spec_KNN Spec_KNNMore Model_History Proof_KNNMore Proof_KNNMoreEx.
Import ListNotations.

(** C169: the distances for fewer neighbours are the first of those for more. *)
Theorem C169_fewer_neighbours : forall (data : matrix R), mwf data -> forall (x : list R) k k' idx ds idx' ds',
  length x = mcols data -> k <= k' ->
  brute_search (Some data) x k = Ok (idx, ds) -> brute_search (Some data) x k' = Ok (idx', ds') -> ds = firstn k ds'.
Proof. exact fewer_neighbours. Qed.
Print Assumptions C169_fewer_neighbours.
Example C169_fewer_neighbours_ex : mwf four /\ (exists idx ds, brute_search (Some four) [2%R] 1 = Ok (idx, ds)) /\
  (exists idx ds, brute_search (Some four) [2%R] 3 = Ok (idx, ds)).
Proof. exact case_fewer. Qed.

(** More rows, and rows in another order: no distance grows (applied in both directions to a mere
    reordering, [extra = []]: none changes). *)
Theorem C169_more_rows : forall (data data' : matrix R) extra x k idx ds idx' ds', mwf data -> mwf data' -> length x = mcols data ->
  mcols data' = mcols data -> Permutation (mrows data') (mrows data ++ extra) ->
  brute_search (Some data) x k = Ok (idx, ds) -> brute_search (Some data') x k = Ok (idx', ds') ->
  forall i, i < k -> (nth i ds' 0 <= nth i ds 0)%R.
Proof. exact more_rows. Qed.
Print Assumptions C169_more_rows.
Example C169_more_rows_ex : mwf four /\ mwf five /\ mcols five = mcols four /\ Permutation (mrows five) (mrows four ++ [[3%R]]) /\
  (exists idx ds, brute_search (Some four) [2%R] 3 = Ok (idx, ds)) /\ (exists idx ds, brute_search (Some five) [2%R] 3 = Ok (idx, ds)).
Proof. exact case_more. Qed.

(** With as many neighbours as rows every query gets the overall majority label. *)
Theorem C169_all_rows_vote : forall s0 t0 (inputs test : matrix R) targets, 1 <= nrows inputs -> mwf inputs -> nrows inputs = length targets ->
  mwf test -> mcols test = mcols inputs ->
  let c := {| knn_k := nrows inputs; knn_searcher := s0; knn_target := t0 |} in
  exists c' v, knn_train brute_builder c inputs targets = (c', Ok tt) /\ (0 < nrows test -> is_vote targets v) /\
    knn_predict (brute_search (F := R)) c' test = Ok (repeat v (nrows test)).
Proof. exact all_rows_vote. Qed.
Print Assumptions C169_all_rows_vote.
Example C169_all_rows_vote_ex : mwf four /\ nrows four = length [3; 1; 1; 2] /\ is_vote [3; 1; 1; 2] 1 /\ mwf five /\ mcols five = mcols four.
Proof. exact case_all. Qed.

(** C170: surplus columns of a query are ignored (any arithmetic). *)
Theorem C170_wide_query : forall (F : Type) (N : Num F) (data : matrix F) x k, mwf data -> mcols data <= length x ->
  brute_search (Some data) x k = brute_search (Some data) (firstn (mcols data) x) k.
Proof. exact @wide_query. Qed.
Print Assumptions C170_wide_query.
(** Columns of the data that the query does not have are ignored. *)
Theorem C170_narrow_query : forall (F : Type) (N : Num F) (data : matrix F) x k,
  brute_search (Some data) x k = brute_search (Some (left_cols (length x) data)) x k.
Proof. exact @narrow_query. Qed.
Print Assumptions C170_narrow_query.
Theorem C170_wide_classifier : forall (F : Type) (N : Num F) (c : KNNClassifier (option (matrix F))) data (inputs : matrix F),
  knn_searcher _ c = Some data -> mwf data -> mwf inputs -> mcols data <= mcols inputs ->
  knn_predict (brute_search (F := F)) c inputs = knn_predict (brute_search (F := F)) c (left_cols (mcols data) inputs).
Proof. exact @wide_classifier. Qed.
Print Assumptions C170_wide_classifier.
(** The query (0) and the query (0, 9, 9) against rows (0, 5), (1, 0): the first answers row 0, although
    row 1 has the smaller distance to every (0, y) with y < 1. *)
Example C170_ex : mwf wide_rows /\ mcols wide_rows = 2 /\
  found_rows (brute_search (Some wide_rows) [b64_of_Z 0] 1) = Some [0] /\
  found_rows (brute_search (Some wide_rows) [b64_of_Z 0; b64_of_Z 0] 1) = Some [1] /\
  found_rows (brute_search (Some wide_rows) [b64_of_Z 0; b64_of_Z 0; b64_of_Z 9] 1) = Some [1].
Proof. exact case_width. Qed.
