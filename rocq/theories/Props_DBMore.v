(** * C185: DBSCAN on more rows ([src/learning/dbscan.rs]) *)
From Coq Require Import List Arith Reals ZArith Lra.
From Verif Require Import Base Num NumF Linalg Model_DBSCAN Spec_DBSCAN Spec_DBSCAN2 Spec_Equiv Spec_DBMore Proof_DBSCANEx Proof_DBMore.
Import ListNotations.
Local Open Scope nat_scope.

(** Appending rows unlabels no row and separates no two rows of one cluster; binary64, any entries. *)
Theorem C185_more_rows : forall (eps : B64) mp data extra lab lab', gets_labels eps mp data lab -> gets_labels eps mp (more_rows data extra) lab' ->
  refines lab (firstn (nrows data) lab').
Proof. exact more_rows_merge. Qed.
Print Assumptions C185_more_rows.
Example C185_ex_more : gets_labels (b64_of_Z 3) 1 (zmat [0; 4]%Z) [Some 0; Some 1] /\
  gets_labels (b64_of_Z 3) 1 (more_rows (zmat [0; 4]%Z) [[b64_of_Z 2]]) [Some 0; Some 0; Some 0].
Proof. exact merge_case. Qed.
(** Rows that are all further than eps from the old ones are clustered on their own, with the labels that follow. *)
Theorem C185_rows_apart : forall (eps : B64) mp data extra lab labx lab',
  (forall r e, In r (mrows data) -> In e extra -> nltb (edist r e) eps = false) ->
  gets_labels eps mp data lab -> gets_labels eps mp (Mat extra (mcols data)) labx -> gets_labels eps mp (more_rows data extra) lab' ->
  exists k, (forall i c, nth i lab None = Some c -> c < k) /\ (forall c, c < k -> exists i, nth i lab None = Some c) /\
    lab' = lab ++ map (option_map (fun c => k + c)) labx.
Proof. exact apart_rows. Qed.
Print Assumptions C185_rows_apart.
Example C185_ex_apart : gets_labels (b64_of_Z 3) 2 (zmat [0; 2]%Z) [Some 0; Some 0] /\
  gets_labels (b64_of_Z 3) 2 (zmat [30; 20; 21]%Z) [None; Some 0; Some 0] /\
  gets_labels (b64_of_Z 3) 2 (more_rows (zmat [0; 2]%Z) (mrows (zmat [30; 20; 21]%Z))) [Some 0; Some 0; None; Some 1; Some 1] /\
  forall r e, In r (mrows (zmat [0; 2]%Z)) -> In e (mrows (zmat [30; 20; 21]%Z)) -> nltb (edist r e) (b64_of_Z 3) = false.
Proof. exact apart_case. Qed.
(** Every row [k] times over, with [k] times the [min_points]: the same labels [k] times over. *)
Theorem C185_copies : forall (eps : R) mp data k lab, mwf data -> (0 < eps)%R -> 0 < k -> gets_labels eps mp data lab ->
  gets_labels eps (k * mp) (Mat (times k (mrows data)) (mcols data)) (times k lab).
Proof. exact copies_same. Qed.
Print Assumptions C185_copies.
(** With [min_points] 1 no row is noise and the clusters are those of single linkage cut at eps. *)
Theorem C185_single_linkage : forall (eps : R) data lab, mwf data -> (0 < eps)%R -> gets_labels eps 1 data lab ->
  (forall i, i < nrows data -> nth i lab None <> None) /\
  (forall i j, i < nrows data -> j < nrows data -> (nth i lab None = nth j lab None <-> linked (nrows data) (near_R data eps) i j)).
Proof. exact single_linkage. Qed.
Print Assumptions C185_single_linkage.
Example C185_ex : let data := Mat [[0%R]; [1%R]; [5%R]] 1 in mwf data /\ (0 < 2)%R /\ (exists lab, gets_labels 2%R 2 data lab) /\ exists lab, gets_labels 2%R 1 data lab.
Proof. exact copies_case. Qed.
