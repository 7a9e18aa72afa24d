(** * DBSCAN at the ends of its parameter ranges (C198) *)
From Coq Require Import List Arith Lia Bool Reals Lra Relations.
From Verif Require Import Base BaseLemmas Num Linalg Model_DBSCAN Spec_KNN Spec_DBSCAN Proof_DBSCAN Proof_DBSCANEx Proof_DBSCAN2 Proof_DBMore.
Import ListNotations.

Lemma trained_labels (m : DBSCAN R) (data : matrix R) : mwf data -> exists m1 lab, dbscan_train (nrows data) m data = Some m1 /\ db_clusters m1 = Some lab /\
  density_labels (nrows data) (near_R data (db_eps m)) (db_min_points m) lab.
Proof.
  intros W. destruct (clusters_real (db_eps m) (db_min_points m) data W) as (w & k & E & D & _). unfold dbscan_train. rewrite E. eexists. exists (w_clusters w). split; [reflexivity|]. split; [reflexivity|]. exact D.
Qed.
Lemma list_is {A} (l l' : list A) n d : length l = n -> length l' = n -> (forall i, i < n -> nth i l d = nth i l' d) -> l = l'.
Proof. intros L L' H. apply (nth_ext _ _ d d); [congruence|]. rewrite L. exact H. Qed.

Lemma core_all n (near : nat -> nat -> Prop) mp i : (forall j, j < n -> near i j) -> mp <= n -> i < n -> core n near mp i.
Proof.
  intros H M Hi. split; [exact Hi|]. exists (seq 0 mp). split; [apply seq_NoDup|]. split; [apply seq_length|]. intros j Hj. apply in_seq in Hj. split; [lia|]. apply H. lia.
Qed.
Theorem one_cluster (m : DBSCAN R) (data : matrix R) : mwf data -> db_min_points m <= nrows data ->
  (forall r r', In r (mrows data) -> In r' (mrows data) -> (euclid (mcols data) r r' < db_eps m)%R) ->
  exists m1, dbscan_train (nrows data) m data = Some m1 /\ db_clusters m1 = Some (repeat (Some 0) (nrows data)).
Proof.
  intros W M Near. destruct (trained_labels m data W) as (m1 & lab & T & E & L & Lc & Lch & Lo). exists m1. split; [exact T|]. rewrite E. f_equal.
  set (n := nrows data) in *. assert (C : forall i, i < n -> core n (near_R data (db_eps m)) (db_min_points m) i).
  { intros i Hi. apply core_all; auto. intros j Hj. apply Near; now apply nth_In. }
  apply (list_is _ _ n None L (repeat_length _ _)). intros i Hi. rewrite (nth_indep (repeat (Some 0) n) None (Some 0)) by (now rewrite repeat_length). rewrite nth_repeat.
  assert (H0 : nth 0 lab None = Some 0).
  { destruct (nth 0 lab None) as [c|] eqn:Q; [|destruct (proj2 (Lc 0 ltac:(lia)) (C 0 ltac:(lia)) Q)]. destruct c as [|c]; [reflexivity|]. destruct (Lo 0 (S c) 0 Q ltac:(lia)) as (j & Hj & _). lia. }
  rewrite <- H0. apply (Lch i 0 (C i Hi) (C 0 ltac:(lia))). apply rt_step. split; [apply C; lia|]. split; [apply C; lia|]. apply Near; apply nth_In; fold (nrows data); fold n; lia.
Qed.
Theorem only_noise (m : DBSCAN R) (data : matrix R) : mwf data -> nrows data < db_min_points m \/ (0 < db_min_points m /\ (db_eps m <= 0)%R) ->
  exists m1, dbscan_train (nrows data) m data = Some m1 /\ db_clusters m1 = Some (repeat None (nrows data)).
Proof.
  intros W M. destruct (trained_labels m data W) as (m1 & lab & T & E & L & Lc & _). exists m1. split; [exact T|]. rewrite E. f_equal.
  apply (list_is _ _ (nrows data) None L (repeat_length _ _)). intros i Hi. rewrite nth_repeat. destruct (nth i lab None) eqn:Q; [|reflexivity]. exfalso.
  destruct (proj1 (Lc i Hi)) as (_ & S & ND & LS & HS); [congruence|]. destruct M as [M|[M Le]].
  - pose proof (NoDup_incl_length ND (l' := seq 0 (nrows data))) as I. rewrite seq_length in I. assert (length S <= nrows data); [|lia]. apply I. intros j Hj. apply in_seq. specialize (HS j Hj). lia.
  - destruct S as [|j S]; [cbn in LS; lia|]. destruct (HS j (or_introl eq_refl)) as [_ H]. unfold near_R, euclid in H. pose proof (sqrt_pos (fold_right Rplus 0%R (map (fun k => ((nth k (nth i (mrows data) []) 0 - nth k (nth j (mrows data) []) 0) ^ 2)%R) (seq 0 (mcols data))))). lra.
Qed.
Theorem own_clusters (m : DBSCAN R) (data : matrix R) : mwf data -> db_min_points m <= 1 -> (0 < db_eps m)%R ->
  (forall i j, i < nrows data -> j < nrows data -> i <> j -> (db_eps m <= euclid (mcols data) (nth i (mrows data) []) (nth j (mrows data) []))%R) ->
  exists m1, dbscan_train (nrows data) m data = Some m1 /\ db_clusters m1 = Some (map Some (seq 0 (nrows data))).
Proof.
  intros W M P Far. destruct (trained_labels m data W) as (m1 & lab & T & E & L & Lc & Lch & Lo). exists m1. split; [exact T|]. rewrite E. f_equal.
  set (n := nrows data) in *. assert (C : forall i, i < n -> core n (near_R data (db_eps m)) (db_min_points m) i).
  { intros i Hi. split; [exact Hi|]. exists (repeat i (db_min_points m)). split; [|split; [apply repeat_length|]].
    - destruct (db_min_points m) as [|[|]]; cbn; [constructor|constructor; [intros []|constructor]|lia].
    - intros j Hj. apply repeat_spec in Hj. subst. split; [exact Hi|]. unfold near_R. rewrite euclid_self. exact P. }
  assert (Ch : forall i j, chain n (near_R data (db_eps m)) (db_min_points m) i j -> i = j).
  { intros i j H. induction H as [i j (Ci & Cj & H)|i|i j k _ IH1 _ IH2]; [|reflexivity|congruence]. destruct (Nat.eq_dec i j) as [|D]; [assumption|]. unfold near_R in H. pose proof (Far i j (proj1 Ci) (proj1 Cj) D). lra. }
  assert (Q : forall i, i < n -> nth i lab None = Some i).
  { induction i as [i IH] using lt_wf_ind. intros Hi. destruct (nth i lab None) as [c|] eqn:Q; [|destruct (proj2 (Lc i Hi) (C i Hi) Q)].
    destruct (lt_eq_lt_dec c i) as [[Lt|Eq]|Gt]; [|congruence|].
    - pose proof (IH c Lt ltac:(lia)) as Qc. assert (c = i) by (apply Ch, (Lch c i (C c ltac:(lia)) (C i Hi)); congruence). lia.
    - destruct (Lo i c i Q Gt) as (j & Hj & Qj). rewrite (IH j Hj ltac:(lia)) in Qj. injection Qj as ->. lia. }
  apply (list_is _ _ n None L); [now rewrite map_length, seq_length|]. intros i Hi. rewrite Q by exact Hi.
  rewrite (nth_indep (map Some (seq 0 n)) None (Some 0)) by (now rewrite map_length, seq_length). now rewrite map_nth, seq_nth.
Qed.

(** ** Concrete cases *)
Definition ends_data : matrix R := Mat [[0]; [4]; [9]]%R 1.
Definition ends_model (eps : R) (mp : nat) : DBSCAN R := {| db_eps := eps; db_min_points := mp; db_clusters := None; db_predictive := false; db_cluster_data := None |}.
Lemma ends_dist i j : i < 3 -> j < 3 -> (i = j -> euclid 1 (nth i (mrows ends_data) []) (nth j (mrows ends_data) []) = 0)%R /\
  (i <> j -> 4 <= euclid 1 (nth i (mrows ends_data) []) (nth j (mrows ends_data) []) <= 9)%R.
Proof.
  intros Hi Hj. split; [intros ->; apply euclid_self|]. intros D. unfold euclid. cbn [seq map fold_right]. rewrite Rplus_0_r.
  destruct i as [|[|[|i]]], j as [|[|[|j]]]; try lia; cbn [ends_data mrows nth].
  all: match goal with |- context [sqrt ?x] => (replace x with (4 * 4)%R by ring; rewrite sqrt_square by lra; lra) || (replace x with (9 * 9)%R by ring; rewrite sqrt_square by lra; lra) || (replace x with (5 * 5)%R by ring; rewrite sqrt_square by lra; lra) end.
Qed.
Lemma ends_case : mwf ends_data /\ 2 <= nrows ends_data /\ (forall r r', In r (mrows ends_data) -> In r' (mrows ends_data) -> (euclid (mcols ends_data) r r' < 10)%R) /\
  (forall i j, i < nrows ends_data -> j < nrows ends_data -> i <> j -> (3 <= euclid (mcols ends_data) (nth i (mrows ends_data) []) (nth j (mrows ends_data) []))%R).
Proof.
  split; [repeat constructor|]. split; [cbn; lia|]. split.
  - intros r r' Hr Hr'. destruct (In_nth _ _ [] Hr) as (i & Hi & <-), (In_nth _ _ [] Hr') as (j & Hj & <-). change (i < 3) in Hi. change (j < 3) in Hj. destruct (ends_dist i j Hi Hj) as [A B].
    change (mcols ends_data) with 1. destruct (Nat.eq_dec i j) as [D|D]; [rewrite (A D); lra|specialize (B D); lra].
  - intros i j Hi Hj D. destruct (ends_dist i j Hi Hj) as [_ B]. change (mcols ends_data) with 1. specialize (B D). lra.
Qed.
