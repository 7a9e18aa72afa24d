(** * Nearest neighbours: other k, more rows, all rows, other widths (C169, C170) *)
From Coq Require Import List Arith Lia Bool Permutation Reals Lra.
From Verif Require Import Base Num Linalg LinalgR Spec_Calc Model_KNN Spec_KNN Spec_KNNMore Proof_KNearest Proof_Tree Proof_KNNVote Proof_KNNEx.
Import ListNotations.
Local Open Scope R_scope.

(** How many of the first [n] numbers have [D] at most [t]. *)
Definition upto (D : nat -> R) (n : nat) (t : R) : nat := length (filter (fun j => if Rle_dec (D j) t then true else false) (seq 0 n)).

Lemma in_upto D n t j : In j (filter (fun j => if Rle_dec (D j) t then true else false) (seq 0 n)) <-> (j < n)%nat /\ D j <= t.
Proof.
  rewrite filter_In, in_seq. split.
  - intros [H1 H2]. destruct (Rle_dec (D j) t); [split; [lia|auto]|discriminate].
  - intros [H1 H2]. destruct (Rle_dec (D j) t); [split; [lia|auto]|contradiction].
Qed.

Lemma not_ltb (x y : R) : nltb x y = false -> y <= x.
Proof. cbn. destruct (Rlt_dec x y); [discriminate|lra]. Qed.

Lemma in_firstn {A} (l : list A) m x : In x (firstn m l) -> In x l.
Proof. intros H. rewrite <- (firstn_skipn m l). apply in_or_app. now left. Qed.
Lemma NoDup_firstn {A} (l : list A) m : NoDup l -> NoDup (firstn m l).
Proof.
  revert m. induction l as [|a l IH]; intros m H; destruct m; cbn; try constructor; inversion H; subst.
  - intros I. apply in_firstn in I. contradiction.
  - auto.
Qed.
Lemma nth_firstn {A} (l : list A) m i d : (i < m)%nat -> nth i (firstn m l) d = nth i l d.
Proof. revert l i. induction m as [|m IH]; intros l i H; [lia|]. destruct l; [reflexivity|]. destruct i; [reflexivity|]. cbn. apply IH. lia. Qed.
Lemma in_firstn_nth {A} (l : list A) m x d : In x (firstn m l) -> exists i, (i < m)%nat /\ (i < length l)%nat /\ nth i l d = x.
Proof.
  intros H. destruct (In_nth _ _ d H) as (i & Hi & E). rewrite firstn_length in Hi. exists i. split; [lia|]. split; [lia|].
  now rewrite nth_firstn in E by lia.
Qed.

(** The [i]-th reported distance is the [i]-th smallest. *)
Lemma nth_smallest n k D idx ds i t : k_nearest n k D idx ds -> (i < k)%nat -> (nth i ds 0 <= t <-> (i < upto D n t)%nat).
Proof.
  intros ((ND & Rg & Ed & So) & Lk & Out) Hi. unfold upto. set (f := filter _ _).
  assert (NF : NoDup f) by apply NoDup_filter, seq_NoDup.
  assert (Di : forall m, (m < k)%nat -> nth m ds 0 = D (nth m idx 0%nat)).
  { intros m Hm. subst ds. rewrite (nth_map D idx m 0 0%nat) by lia. reflexivity. }
  assert (Ld : length ds = k) by (subst ds; now rewrite map_length).
  assert (Sl : forall a b, (a <= b)%nat -> (b < k)%nat -> nth a ds 0 <= nth b ds 0).
  { intros a b Hab Hb. destruct (Nat.eq_dec a b) as [->|]; [lra|]. apply not_ltb. apply (So a b); lia. }
  split.
  - intros H. assert (I : incl (firstn (S i) idx) f).
    { intros j Hj. destruct (in_firstn_nth _ _ _ 0%nat Hj) as (m & Hm & Hm' & E). apply in_upto. split; [apply Rg; eauto using in_firstn|].
      rewrite <- E, <- Di by lia. pose proof (Sl m i ltac:(lia) Hi). lra. }
    apply NoDup_incl_length in I; [|now apply NoDup_firstn]. rewrite firstn_length in I. lia.
  - intros H. destruct (Rle_dec (nth i ds 0) t) as [|Hn]; [assumption|exfalso].
    assert (I : incl f (firstn i idx)).
    { intros j Hj. apply in_upto in Hj. destruct Hj as [Hj Hd].
      destruct (in_dec Nat.eq_dec j idx) as [Hin|Hout].
      - destruct (In_nth _ _ 0%nat Hin) as (m & Hm & E). destruct (Nat.lt_ge_cases m i) as [Hmi|Hmi].
        + rewrite <- E, <- (nth_firstn idx i m 0%nat) by auto. apply nth_In. rewrite firstn_length. lia.
        + pose proof (Sl i m Hmi ltac:(lia)) as S1. rewrite (Di m) in S1 by lia. rewrite E in S1. lra.
      - pose proof (Out (nth i idx 0%nat) j ltac:(apply nth_In; lia) Hj Hout) as O. apply not_ltb in O. rewrite <- Di in O by auto. lra. }
    apply NoDup_incl_length in I; [|exact NF]. rewrite firstn_length in I. lia.
Qed.

Section Search.
Context (data : matrix R) (W : mwf data).

Lemma search_nearest x k idx ds : length x = mcols data -> brute_search (Some data) x k = Ok (idx, ds) ->
  (1 <= k <= nrows data)%nat /\ k_nearest (nrows data) k (fun i => euclid (mcols data) x (nth i (mrows data) [])) idx ds.
Proof.
  intros L E. assert (K : (1 <= k <= nrows data)%nat).
  { destruct (Nat.eq_dec k 0) as [Z|Z]; [rewrite brute_bad_k in E by auto; discriminate|].
    destruct (Nat.lt_ge_cases (nrows data) k) as [Z'|Z']; [rewrite brute_bad_k in E by auto; discriminate|]. lia. }
  split; [exact K|]. destruct (brute_real data x k W L K) as (idx' & ds' & E' & Q). rewrite E' in E. now injection E as <- <-.
Qed.

Lemma nearest_len n k (D : nat -> R) idx ds : k_nearest n k D idx ds -> length ds = k.
Proof. intros ((_ & _ & -> & _) & Lk & _). now rewrite map_length. Qed.

Theorem fewer_neighbours x k k' idx ds idx' ds' : length x = mcols data -> (k <= k')%nat ->
  brute_search (Some data) x k = Ok (idx, ds) -> brute_search (Some data) x k' = Ok (idx', ds') -> ds = firstn k ds'.
Proof.
  intros L Hk E E'. destruct (search_nearest _ _ _ _ L E) as [K Q]. destruct (search_nearest _ _ _ _ L E') as [K' Q'].
  pose proof (nearest_len _ _ _ _ _ Q) as L1. pose proof (nearest_len _ _ _ _ _ Q') as L2.
  apply (nth_ext _ _ 0 0); [rewrite firstn_length; lia|]. intros i Hi. rewrite L1 in Hi. rewrite nth_firstn by auto.
  assert (Hi' : (i < k')%nat) by lia.
  apply Rle_antisym.
  - apply (nth_smallest _ _ _ _ _ _ _ Q Hi), (nth_smallest _ _ _ _ _ _ _ Q' Hi'). lra.
  - apply (nth_smallest _ _ _ _ _ _ _ Q' Hi'), (nth_smallest _ _ _ _ _ _ _ Q Hi). lra.
Qed.
End Search.

(** Counting over the rows instead of their numbers. *)
Lemma upto_rows (f : list R -> R) rows t : upto (fun i => f (nth i rows [])) (length rows) t = length (filter (fun r => if Rle_dec (f r) t then true else false) rows).
Proof.
  unfold upto. enough (G : forall pre, length (filter (fun j => if Rle_dec (f (nth j (pre ++ rows) [])) t then true else false) (seq (length pre) (length rows))) =
    length (filter (fun r => if Rle_dec (f r) t then true else false) rows)) by exact (G []).
  induction rows as [|r rows IH]; intros pre; cbn [length seq filter]; [reflexivity|].
  rewrite app_nth2, Nat.sub_diag by lia. cbn [nth]. specialize (IH (pre ++ [r])). rewrite <- app_assoc in IH. cbn [app] in IH.
  rewrite app_length in IH. cbn [length] in IH. rewrite Nat.add_1_r in IH.
  destruct (Rle_dec (f r) t); cbn [length]; now rewrite IH.
Qed.
Lemma filter_perm_len {A} (p : A -> bool) l l' : Permutation l l' -> length (filter p l) = length (filter p l').
Proof. induction 1; cbn; auto; try congruence; repeat destruct (p _); cbn; congruence. Qed.

Theorem more_rows (data data' : matrix R) extra x k idx ds idx' ds' : mwf data -> mwf data' -> length x = mcols data -> mcols data' = mcols data ->
  Permutation (mrows data') (mrows data ++ extra) ->
  brute_search (Some data) x k = Ok (idx, ds) -> brute_search (Some data') x k = Ok (idx', ds') -> forall i, (i < k)%nat -> nth i ds' 0 <= nth i ds 0.
Proof.
  intros W W' L C P E E' i Hi. destruct (search_nearest data W _ _ _ _ L E) as [K Q].
  destruct (search_nearest data' W' _ _ _ _ (eq_trans L (eq_sym C)) E') as [K' Q'].
  apply (nth_smallest _ _ _ _ _ _ _ Q' Hi). pose proof (proj1 (nth_smallest _ _ _ _ _ _ (nth i ds 0) Q Hi) ltac:(lra)) as U.
  unfold nrows in *. rewrite (upto_rows (fun r => euclid (mcols data) x r)) in U. rewrite C, (upto_rows (fun r => euclid (mcols data) x r)).
  rewrite (filter_perm_len _ _ _ P), filter_app, app_length. lia.
Qed.

(** ** k = number of rows *)
Lemma all_numbers n idx : NoDup idx -> (forall i, In i idx -> (i < n)%nat) -> length idx = n -> Permutation idx (seq 0 n).
Proof.
  intros ND Rg L. apply NoDup_Permutation_bis; auto; [rewrite seq_length; lia|]. intros i Hi. apply in_seq. specialize (Rg i Hi). lia.
Qed.
Lemma is_vote_perm l l' v : Permutation l l' -> is_vote l v -> is_vote l' v.
Proof.
  intros P [H1 H2]. split; [eapply Permutation_in; eauto|]. intros w. destruct (H2 w) as [A B].
  rewrite <- !(proj1 (Permutation_count_occ Nat.eq_dec l l') P). split; [exact A|]. intros I. apply B. eapply Permutation_in; [apply Permutation_sym|]; eauto.
Qed.
Lemma is_vote_unique l v w : is_vote l v -> is_vote l w -> v = w.
Proof.
  intros [A1 A2] [B1 B2]. destruct (A2 w) as [X1 X2]. destruct (B2 v) as [Y1 Y2].
  assert (E : count_occ Nat.eq_dec l w = count_occ Nat.eq_dec l v) by lia. specialize (X2 B1 E). specialize (Y2 A1 (eq_sym E)). lia.
Qed.
Lemma F2_impl {A B} (P Q : A -> B -> Prop) l l' : (forall a b, P a b -> Q a b) -> Forall2 P l l' -> Forall2 Q l l'.
Proof. intros H. induction 1; constructor; auto. Qed.
Theorem all_rows_vote s0 t0 (inputs test : matrix R) targets : (1 <= nrows inputs)%nat -> mwf inputs -> nrows inputs = length targets ->
  mwf test -> mcols test = mcols inputs ->
  let c := {| knn_k := nrows inputs; knn_searcher := s0; knn_target := t0 |} in
  exists c' v, knn_train brute_build c inputs targets = (c', Ok tt) /\ (0 < nrows test -> is_vote targets v)%nat /\
    knn_predict (brute_search (F := R)) c' test = Ok (repeat v (nrows test)).
Proof.
  intros Hn W El Wt Ct c. destruct (classifier_brute (nrows inputs) s0 t0 inputs targets Hn W) as [_ G].
  destruct (G El (le_n _)) as (c' & Et & Pr). destruct (Pr test Wt Ct) as (out & Eo & FA).
  assert (A : Forall2 (fun _ l => is_vote targets l) (mrows test) out).
  { eapply F2_impl; [|exact FA]. cbn beta. intros row l (idx & ds & ((ND & Rg & _) & Lk & _) & V).
    eapply is_vote_perm; [|exact V]. eapply perm_trans; [apply Permutation_map; apply (all_numbers (nrows inputs)); eauto|].
    rewrite El. clear. induction targets as [|a l' IH] using rev_ind; [constructor|]. rewrite app_length, Nat.add_1_r, seq_S, map_app. cbn.
    apply Permutation_app.
    - erewrite map_ext_in; [exact IH|]. intros j Hj. apply in_seq in Hj. cbn beta. now rewrite app_nth1 by lia.
    - rewrite app_nth2, Nat.sub_diag by lia. constructor. constructor. }
  destruct out as [|v out].
  - exists c', 0%nat. split; [exact Et|]. inversion A as [Em|]; subst. unfold nrows. rewrite <- Em. cbn. split; [lia|]. exact Eo.
  - exists c', v. split; [exact Et|]. inversion A as [|r ? rs ? Hv Ha Em]; subst. split; [auto|]. rewrite Eo. f_equal. unfold nrows. rewrite <- Em. cbn. f_equal.
    clear - Ha Hv. induction Ha as [|? ? ? ? Hb ? IH]; cbn; [reflexivity|]. f_equal; [eapply is_vote_unique; eauto|auto].
Qed.

(** ** Queries of another width *)
Section Width.
  Context {F : Type} {N : Num F}.
  Lemma map2_firstn_l {A B C} (f : A -> B -> C) l l' : map2 f (firstn (length l') l) l' = map2 f l l'.
  Proof. revert l. induction l' as [|b l' IH]; intros [|a l]; cbn; auto. now rewrite IH. Qed.
  Lemma map2_firstn_r {A B C} (f : A -> B -> C) l l' : map2 f l (firstn (length l) l') = map2 f l l'.
  Proof. revert l'. induction l as [|b l IH]; intros [|a l']; cbn; auto. now rewrite IH. Qed.

  Lemma brute_dists (d1 d2 : matrix F) p1 p2 k : nrows d1 = nrows d2 ->
    (forall i, (i < nrows d1)%nat -> dist p1 (nth i (mrows d1) []) = dist p2 (nth i (mrows d2) [])) ->
    brute_search (Some d1) p1 k = brute_search (Some d2) p2 k.
  Proof.
    intros En H. unfold brute_search, get_distances.
    assert (Er : rmap (fun id => let? row := ridx (mrows d1) id in Ok (dist p1 row)) (seq 0 k) = rmap (fun id => let? row := ridx (mrows d2) id in Ok (dist p2 row)) (seq 0 k)).
    { generalize (seq 0 k). induction l as [|i l IH]; cbn [rmap]; [reflexivity|]. rewrite IH. unfold ridx.
      unfold nrows in En, H. destruct (Nat.lt_ge_cases i (length (mrows d1))) as [Hi|Hi].
      - rewrite (nth_error_nth' _ [] Hi), (nth_error_nth' (mrows d2) [] (n := i)) by lia. cbn. now rewrite H.
      - rewrite (proj2 (nth_error_None _ _) Hi), (proj2 (nth_error_None (mrows d2) i)) by lia. reflexivity. }
    rewrite Er. assert (Ec : map (dist p1) (skipn k (mrows d1)) = map (dist p2) (skipn k (mrows d2))).
    { rewrite <- !skipn_map. f_equal. unfold nrows in *. apply (nth_ext _ _ (dist p1 []) (dist p2 [])); rewrite !map_length; auto.
      intros i Hi. rewrite !map_nth. auto. }
    now rewrite Ec, En.
  Qed.
  Theorem wide_query (data : matrix F) x k : mwf data -> (mcols data <= length x)%nat -> brute_search (Some data) x k = brute_search (Some data) (firstn (mcols data) x) k.
  Proof.
    intros W L. apply brute_dists; [reflexivity|]. intros i Hi. unfold dist. f_equal. f_equal.
    assert (Lr : length (nth i (mrows data) []) = mcols data) by (unfold mwf in W; rewrite Forall_forall in W; apply W, nth_In, Hi).
    rewrite <- Lr. symmetry. apply map2_firstn_l.
  Qed.
  Theorem narrow_query (data : matrix F) x k : brute_search (Some data) x k = brute_search (Some (left_cols (length x) data)) x k.
  Proof.
    apply brute_dists; [unfold nrows; cbn; now rewrite map_length|]. intros i Hi. cbn [left_cols mrows].
    rewrite (nth_map (firstn (length x)) (mrows data) i [] []) by exact Hi. unfold dist. f_equal. f_equal. symmetry. apply map2_firstn_r.
  Qed.
  Theorem wide_classifier (c : KNNClassifier (option (matrix F))) data (inputs : matrix F) : knn_searcher _ c = Some data -> mwf data -> mwf inputs -> (mcols data <= mcols inputs)%nat ->
    knn_predict (brute_search (F := F)) c inputs = knn_predict (brute_search (F := F)) c (left_cols (mcols data) inputs).
  Proof.
    intros Es W Wi L. unfold knn_predict. destruct (knn_target _ c) as [t|]; [|reflexivity]. rewrite Es. cbn [left_cols mrows].
    unfold mwf in Wi. revert Wi. generalize (mrows inputs). induction l as [|r l IH]; intros Fl; cbn [rmap map]; [reflexivity|]. inversion Fl; subst.
    rewrite IH by auto. rewrite (wide_query data r) by (auto; lia). reflexivity.
  Qed.
End Width.
