(** * Concrete cases for C166 and C167 *)
From Coq Require Import List Arith Lia Bool ZArith.
From Flocq Require Import Core BinarySingleNaN.
From Verif Require Import Base Num NumF Linalg Model_KNN Model_DBSCAN Model_KMeans Spec_NaN Proof_NaN.
Import ListNotations.

Definition qnan : B64 := B754_nan.
(** Rows 0, 2 and 3 at 1, 2, 9; row 1 is missing. *)
Definition gappy : matrix B64 := Mat [[b64_of_Z 1]; [qnan]; [b64_of_Z 2]; [b64_of_Z 9]] 1.
(** The missing row comes first. *)
Definition gap_first : matrix B64 := Mat [[qnan]; [b64_of_Z 1]; [b64_of_Z 2]; [b64_of_Z 9]] 1.

Definition found {F} (r : res (list nat * list F)) : option (list nat) := match r with Ok (idx, _) => Some idx | _ => None end.
Lemma case_gappy : mwf gappy /\ nrows gappy = 4 /\ has_nan (nth 1 (mrows gappy) []) /\ found (brute_search (Some gappy) [b64_of_Z 3] 1) = Some [2].
Proof. split; [repeat constructor|]. split; [reflexivity|]. split; [exists 0; split; [cbn; lia|reflexivity]|]. vm_compute. reflexivity. Qed.
Lemma case_panics : brute_search (Some gappy) [b64_of_Z 3] 2 = Panic.
Proof. vm_compute. reflexivity. Qed.
Lemma case_first : mwf gap_first /\ nrows gap_first = 4 /\ has_nan (nth 0 (mrows gap_first) []) /\ found (brute_search (Some gap_first) [b64_of_Z 2] 1) = Some [0].
Proof. split; [repeat constructor|]. split; [reflexivity|]. split; [exists 0; split; [cbn; lia|reflexivity]|]. vm_compute. reflexivity. Qed.
Lemma case_dbscan : option_map (fun p => w_clusters (fst p)) (clustering (b64_of_Z 3) 2 gappy 4) = Some [Some 0; None; Some 0; None].
Proof. vm_compute. reflexivity. Qed.
Definition db0 : DBSCAN B64 := {| db_eps := b64_of_Z 3; db_min_points := 2; db_clusters := None; db_predictive := true; db_cluster_data := None |}.
Lemma case_dbscan_predict : exists m, dbscan_train 4 db0 gap_first = Some m /\
  db_predictive m = true /\ db_cluster_data m = Some gap_first /\ db_clusters m = Some [None; Some 0; Some 0; None].
Proof.
  assert (H : option_map (fun p => w_clusters (fst p)) (clustering (b64_of_Z 3) 2 gap_first 4) = Some [None; Some 0; Some 0; None]) by (vm_compute; reflexivity).
  unfold dbscan_train. cbn [db_eps db_min_points db0]. destruct (clustering (b64_of_Z 3) 2 gap_first 4) as [[w k]|]; [|discriminate].
  cbn [option_map fst] in H. eexists. split; [reflexivity|]. split; [reflexivity|]. split; [reflexivity|]. cbn [db_clusters]. exact H.
Qed.
Definition starts : matrix B64 := Mat [[b64_of_Z 1]; [b64_of_Z 9]] 1.
Lemma case_kmeans : mwf starts /\ mwf gappy /\ nrows gappy = 4 /\ has_nan (nth 1 (mrows gappy) []) /\
  km_predict (fst (km_train (b64_dec 1 14) (Ok starts) (km_new 2 3) gappy)) starts = Ok [0; 0] /\ km_predict (km_set (km_new 2 3) starts) starts = Ok [0; 1].
Proof. split; [repeat constructor|]. split; [repeat constructor|]. split; [reflexivity|]. split; [exists 0; split; [cbn; lia|reflexivity]|]. split; vm_compute; reflexivity. Qed.
Lemma case_tree : mwf gap_first /\ 0 < mcols gap_first /\ nnan (nth 0 (nth 0 (mrows gap_first) []) nzero) = true /\
  match tree_build kd_split 10 3 gappy with Some (Ok _) => true | _ => false end = true.
Proof. split; [repeat constructor|]. split; [cbn; lia|]. split; [reflexivity|]. vm_compute. reflexivity. Qed.
