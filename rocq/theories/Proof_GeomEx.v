(** * Concrete cases for C108-C111, and kd-trees against true distances *)
From Coq Require Import List Arith Lia Bool Permutation Reals Lra ZArith.
From Flocq Require Import Core BinarySingleNaN.
From Verif Require Import Base BaseLemmas Num NumF NumOrd Linalg LinalgR Spec_Calc Model_KNN Model_DBSCAN Spec_KNN Spec_KNN2 Spec_DBSCAN2 Spec_B64 B64Lemmas
  Proof_KNearest Proof_KNNEx Proof_DistB64 Proof_ErrB64 Proof_B64Ex Proof_DBSCANEx Proof_DBSCAN2 Proof_Similar.
Import ListNotations.
Local Open Scope R_scope.

(** What [k_nearest] computed distances say about true ones. *)
Lemma nearest_true (data : matrix B64) (point : list B64) (k : nat) idx ds :
  mwf data -> length point = mcols data -> moderate_dim (mcols data) -> moderate point -> (forall r, In r (mrows data) -> moderate r) ->
  k_nearest (nrows data) k (fun i => dist point (nth i (mrows data) [])) idx ds ->
  let D := fun i => true_dist (mcols data) point (nth i (mrows data) []) in
  length idx = k /\ NoDup idx /\ (forall i, In i idx -> (i < nrows data)%nat) /\
    (forall i, (i < k)%nat -> close_to (B2R (nth i ds nzero)) (D (nth i idx 0%nat))) /\
    (forall i j, In i idx -> (j < nrows data)%nat -> ~ In j idx -> D i <= (1 + bpow radix2 (-29)) * D j + bpow radix2 (-524)).
Proof.
  intros W L Md Mp Mr ((N & I & S & _) & Lk & Q) D.
  assert (C : forall i, (i < nrows data)%nat -> is_finite (dist point (nth i (mrows data) [])) = true /\ close_to (B2R (dist point (nth i (mrows data) []))) (D i)).
  { intros i Hi. destruct (dist_close (mcols data) point (nth i (mrows data) [])) as (F & _ & C); auto. - now apply row_len. - apply Mr. now apply nth_In. }
  split; auto. split; auto. split; auto. split.
  + intros i Hi. rewrite S. rewrite (nth_indep _ nzero (dist point (nth 0 (mrows data) []))) by (rewrite map_length; lia).
    rewrite (map_nth (fun i => dist point (nth i (mrows data) []))). apply C. apply I. apply nth_In. lia.
  + intros i j Hi Hj Nj. specialize (Q i j Hi Hj Nj). destruct (C i (I i Hi)) as [Fi Ci]. destruct (C j Hj) as [Fj Cj].
    apply nltb_finite_false in Q; auto. eapply close_compare; eauto; apply euclid_nonneg.
Qed.
Lemma kd_true (data : matrix B64) (point : list B64) (k : nat) fuel leafsize t :
  mwf data -> length point = mcols data -> moderate_dim (mcols data) -> moderate point -> (forall r, In r (mrows data) -> moderate r) -> (1 <= k)%nat -> (0 < nrows data)%nat ->
  tree_build kd_split fuel leafsize data = Some (Ok t) -> k = 1%nat \/ (k <= length (home point t))%nat ->
  let D := fun i => true_dist (mcols data) point (nth i (mrows data) []) in
  exists idx ds, tree_search kd_split (Some (t, data)) point k = Ok (idx, ds) /\ length idx = k /\ NoDup idx /\ (forall i, In i idx -> (i < nrows data)%nat) /\
    (forall i, (i < k)%nat -> close_to (B2R (nth i ds nzero)) (D (nth i idx 0%nat))) /\
    (forall i j, In i idx -> (j < nrows data)%nat -> ~ In j idx -> D i <= (1 + bpow radix2 (-29)) * D j + bpow radix2 (-524)).
Proof.
  intros W L Md Mp Mr K NE B H D. destruct (kd_b64 data point) with (fuel := fuel) (leafsize := leafsize) (t := t) (k := k) as (idx & ds & E & Q); auto.
  - intros i Hi. apply moderate_finite, Mr. now apply nth_In.
  - now apply moderate_finite.
  - exists idx, ds. split; auto. now apply nearest_true.
Qed.

(** ** Cases *)
Definition ex_data := zmat [0; 2; 30; 20; 21]%Z.
Definition ex_m : DBSCAN B64 := {| db_eps := b64_of_Z 3; db_min_points := 2; db_clusters := None; db_predictive := false; db_cluster_data := None |}.
Definition ex_m' : DBSCAN B64 := {| db_eps := b64_of_Z 10; db_min_points := 2; db_clusters := None; db_predictive := false; db_cluster_data := None |}.
Lemma by_labels fuel (m : DBSCAN B64) data lab : option_map db_clusters (dbscan_train fuel m data) = Some (Some lab) ->
  exists m1, dbscan_train fuel m data = Some m1 /\ db_clusters m1 = Some lab.
Proof. destruct dbscan_train as [m1|]; cbn; [|discriminate]. intros [= E]. eauto. Qed.
Lemma mono_ex : nnan (db_eps ex_m') = false /\ nltb (db_eps ex_m') (db_eps ex_m) = false /\
  (exists m1, dbscan_train (nrows ex_data) ex_m ex_data = Some m1 /\ db_clusters m1 = Some [Some 0; Some 0; None; Some 1; Some 1]%nat) /\
  (exists m1, dbscan_train (nrows ex_data) ex_m' ex_data = Some m1 /\ db_clusters m1 = Some [Some 0; Some 0; Some 1; Some 1; Some 1]%nat).
Proof.
  split; [vm_compute; reflexivity|]. split; [vm_compute; reflexivity|].
  split; apply by_labels; vm_compute; reflexivity.
Qed.
Lemma tol_ex : mwf ex_data /\ moderate_dim (mcols ex_data) /\ (forall r, In r (mrows ex_data) -> moderate r) /\ is_finite (db_eps ex_m) = true /\
  tol_up (29 / 10) <= B2R (db_eps ex_m) <= tol_down (31 / 10).
Proof.
  split; [repeat constructor|]. split; [cbv; discriminate|]. split; [exact (rows_moderate [[0]; [2]; [30]; [20]; [21]]%Z eq_refl)|].
  split; [vm_compute; reflexivity|]. assert (E : B2R (db_eps ex_m) = 3).
  { change (db_eps ex_m) with (b64_of_Z 3). unfold B2R. vm_compute. lra. }
  rewrite E. unfold tol_up, tol_down.
  assert (A : bpow radix2 (-31) <= bpow radix2 (-10)) by (apply bpow_le; lia). assert (B : bpow radix2 (-526) <= bpow radix2 (-10)) by (apply bpow_le; lia).
  assert (C : bpow radix2 (-10) = / 1024) by (cbn; lra). pose proof (bpow_gt_0 radix2 (-31)). lra.
Qed.
