(** * Nearest neighbours: similarity invariance, one neighbour *)
From Coq Require Import List Arith Lia Bool Permutation Reals Lra ZArith.
From Flocq Require Import Core BinarySingleNaN.
From Verif Require Import Base BaseLemmas Num NumF NumOrd Linalg LinalgR Spec_Calc Model_KNN Model_History Spec_KNN Spec_KNN2 Spec_DBSCAN2 Spec_B64 B64Lemmas Euclid
  Proof_TreeBall Proof_KNearest Proof_KNNVote Proof_KNNEx Proof_DistB64 Proof_ErrB64.
Import ListNotations.
Local Open Scope nat_scope.

Definition rfun {A B} (f : A -> B) (r : res A) : res B := match r with Ok a => Ok (f a) | Err e => Err e | Panic => Panic end.

Lemma rmap_len {A B} (f : A -> res B) l r : rmap f l = Ok r -> length r = length l.
Proof.
  revert r. induction l as [|a l IH]; cbn; intros r; [intros [= <-]; auto|]. destruct (f a); cbn; try discriminate.
  destruct (rmap f l); cbn; try discriminate. intros [= <-]. cbn. now rewrite (IH _ eq_refl).
Qed.

(** ** Only the order of the distances matters *)
Section Hom.
  Context {F F' : Type} {N : Num F} {N' : Num F'} (h : F -> F').
  Hypothesis HL : forall x y, nltb (h x) (h y) = nltb x y.
  Hypothesis HN : forall x, nnan (h x) = nnan x.
  Definition ph (p : nat * F) : nat * F' := (fst p, h (snd p)).
  Lemma ridx_map l i : ridx (map ph l) i = rfun ph (ridx l i).
  Proof. unfold ridx. rewrite nth_error_map. now destruct nth_error. Qed.
  Lemma sort_insert_map p l : sort_insert (ph p) (map ph l) = map ph (sort_insert p l).
  Proof. induction l as [|q l IH]; cbn; auto. rewrite HL. destruct nltb; cbn; auto. now rewrite IH. Qed.
  Lemma sort_pairs_map l : sort_pairs (map ph l) = map ph (sort_pairs l).
  Proof. induction l as [|q l IH]; cbn; auto. rewrite IH. apply sort_insert_map. Qed.
  Lemma combine_map_ph idx ds : combine idx (map h ds) = map ph (combine idx ds).
  Proof. revert ds. induction idx; intros [|d ds]; cbn; auto. now rewrite IHidx. Qed.
  Lemma new_map k idx ds : knearest_new k idx (map h ds) = rfun (map ph) (knearest_new k idx ds).
  Proof.
    unfold knearest_new. rewrite combine_map_ph, map_length, sort_pairs_map, firstn_map.
    assert (E : existsb (fun p => nnan (snd p)) (map ph (combine idx ds)) = existsb (fun p => nnan (snd p)) (combine idx ds)).
    { generalize (combine idx ds). induction l; cbn; auto. now rewrite HN, IHl. }
    rewrite E. now destruct (_ && _).
  Qed.
  Lemma vec_insert_map i p l : vec_insert i (ph p) (map ph l) = map ph (vec_insert i p l).
  Proof. unfold vec_insert. now rewrite firstn_map, skipn_map, map_app. Qed.
  Lemma add_scan_map j ps p : add_scan j (map ph ps) (ph p) = rfun (map ph) (add_scan j ps p).
  Proof.
    induction j as [|j IH]; cbn [add_scan]; [reflexivity|]. rewrite ridx_map. destruct (ridx ps j) as [q| |]; cbn [rfun rbind]; auto.
    cbn [ph snd]. rewrite HL. destruct nltb; auto. cbn [rfun]. f_equal. apply (vec_insert_map (S j)).
  Qed.
  Lemma removelast_map {A B} (f : A -> B) l : removelast (map f l) = map f (removelast l).
  Proof. induction l as [|a [|b l] IH]; cbn in *; auto. now rewrite IH. Qed.
  Lemma add_map k ps i d : knearest_add k (map ph ps) i (h d) = rfun (fun r => (map ph (fst r), h (snd r))) (knearest_add k ps i d).
  Proof.
    unfold knearest_add. rewrite map_length, ridx_map. destruct (ridx ps (length ps - 1)) as [q| |]; cbn [rfun rbind]; auto. cbn [ph snd]. rewrite HL.
    destruct (nltb (snd q) d).
    - replace (if (length ps <? k)%nat then map ph ps ++ [(i, h d)] else map ph ps) with (map ph (if (length ps <? k)%nat then ps ++ [(i, d)] else ps)) by (destruct (_ <? _); rewrite ?map_app; reflexivity).
      rewrite ridx_map. now destruct ridx.
    - replace (if (k <=? length ps)%nat then removelast (map ph ps) else map ph ps) with (map ph (if (k <=? length ps)%nat then removelast ps else ps)) by (destruct (_ <=? _); now rewrite ?removelast_map).
      change (i, h d) with (ph (i, d)). rewrite add_scan_map. destruct add_scan; cbn [rfun rbind]; auto. rewrite ridx_map. now destruct ridx.
  Qed.
  Lemma offer_map k cs : forall ps cur, offer k (map ph cs) (map ph ps) (h cur) = rfun (map ph) (offer k cs ps cur).
  Proof.
    induction cs as [|[i d] cs IH]; intros ps cur; cbn [offer map ph fst snd]; auto. rewrite HL. destruct nltb; auto. rewrite add_map.
    destruct knearest_add as [[ps' cur']| |]; cbn [rfun rbind fst snd]; auto.
  Qed.
  Lemma rmap_map_ids (data : matrix F) (data' : matrix F') point point' ids : nrows data' = nrows data ->
    (forall i, i < nrows data -> dist point' (nth i (mrows data') []) = h (dist point (nth i (mrows data) []))) ->
    rmap (fun id => let? row := ridx (mrows data') id in Ok (dist point' row)) ids = rfun (map h) (rmap (fun id => let? row := ridx (mrows data) id in Ok (dist point row)) ids).
  Proof.
    intros Nr H. induction ids as [|i ids IH]; cbn [rmap]; auto. rewrite IH. clear IH.
    destruct (lt_dec i (nrows data)) as [L|L].
    - rewrite !(ridx_nth _ _ []) by (unfold nrows in *; lia). cbn [rbind]. rewrite H by auto. now destruct rmap.
    - unfold ridx. rewrite (proj2 (nth_error_None _ _)) by (unfold nrows in *; lia). rewrite (proj2 (nth_error_None _ _)) by (unfold nrows in *; lia). reflexivity.
  Qed.
  Lemma brute_map (data : matrix F) (data' : matrix F') point point' k : nrows data' = nrows data -> k <= nrows data ->
    (forall i, i < nrows data -> dist point' (nth i (mrows data') []) = h (dist point (nth i (mrows data) []))) ->
    brute_search (Some data') point' k = rfun (fun r => (fst r, map h (snd r))) (brute_search (Some data) point k).
  Proof.
    intros Nr K H. unfold brute_search, get_distances. destruct (seq 0 k) as [|a s] eqn:Es; [reflexivity|]. cbn [rassert]. rewrite <- Es.
    rewrite (rmap_map_ids data data' point point') by auto. destruct (rmap _ (seq 0 k)) as [ds| |] eqn:Ed; cbn [rfun rbind]; auto.
    rewrite new_map. destruct (knearest_new k (seq 0 k) ds) as [q| |] eqn:Eq; cbn [rfun rbind]; auto.
    assert (Lq : length q = k).
    { unfold knearest_new in Eq. destruct (_ && _); [discriminate|]. injection Eq as <-. rewrite firstn_length, <- (Permutation_length (sort_pairs_perm _)), combine_length, seq_length.
      apply rmap_len in Ed. rewrite seq_length in Ed. lia. }
    unfold knearest_dist. rewrite map_length, Lq, Nat.ltb_irrefl, ridx_map. destruct (ridx q (k - 1)) as [c| |]; cbn [rfun rbind]; auto.
    rewrite Nr. assert (Em : map (dist point') (skipn k (mrows data')) = map h (map (dist point) (skipn k (mrows data)))).
    { rewrite <- !skipn_map. f_equal. rewrite map_map.
      apply (nth_ext _ _ (dist point' []) (h (dist point []))); [rewrite !map_length; exact Nr|]. rewrite map_length. intros i Hi.
      rewrite (map_nth (dist point')), (map_nth (fun x => h (dist point x))). apply H. unfold nrows in *. lia. }
    rewrite Em, combine_map_ph. change (snd (ph c)) with (h (snd c)). rewrite offer_map. destruct offer as [ps| |]; cbn [rfun rbind]; auto.
    unfold get_results. cbn [fst snd]. rewrite !map_map. reflexivity.
  Qed.
End Hom.

Lemma nrows_map {F} n' T (m : matrix F) : nrows (map_rows n' T m) = nrows m.
Proof. unfold nrows, map_rows. cbn. apply map_length. Qed.
Lemma In_row_len {F} (m : matrix F) r : mwf m -> In r (mrows m) -> length r = mcols m.
Proof. intros W. exact (proj1 (Forall_forall _ _) W r). Qed.
Lemma brute_similar (data : matrix R) (point : list R) n' s T k : mwf data -> length point = mcols data -> mwf (map_rows n' T data) -> length (T point) = n' ->
  (0 < s)%R -> similarity (mcols data) n' s T (point :: mrows data) -> k <= nrows data ->
  brute_search (Some (map_rows n' T data)) (T point) k = rfun (fun r => (fst r, map (Rmult s) (snd r))) (brute_search (Some data) point k).
Proof.
  intros W L W' L' Hs Si K. apply brute_map; auto; [|apply nrows_map|].
  - intros x y. destruct (nltb x y) eqn:E.
    + apply nltb_R in E. apply nltb_R. now apply Rmult_lt_compat_l.
    + apply nltb_R_false in E. apply nltb_R_false. apply Rmult_le_compat_l; lra.
  - intros i Hi. assert (I : In (nth i (mrows data) []) (mrows data)) by now apply nth_In.
    assert (E : nth i (mrows (map_rows n' T data)) [] = T (nth i (mrows data) [])).
    { unfold map_rows. cbn [mrows]. rewrite (nth_indep _ [] (T [])) by (rewrite map_length; exact Hi). apply map_nth. }
    rewrite E, (dist_euclid n'), (dist_euclid (mcols data)); auto.
    + apply Si; [now left|now right].
    + now apply In_row_len.
    + unfold mwf, map_rows in W'. cbn in W'. rewrite Forall_forall in W'. apply W'. now apply in_map.
Qed.
Lemma classifier_similar (c c' : KNNClassifier (option (matrix R))) (data test : matrix R) n' s T : mwf data -> mwf test -> mcols test = mcols data ->
  mwf (map_rows n' T data) -> mwf (map_rows n' T test) -> (0 < s)%R -> similarity (mcols data) n' s T (mrows test ++ mrows data) ->
  knn_searcher _ c = Some data -> knn_searcher _ c' = Some (map_rows n' T data) -> knn_k _ c' = knn_k _ c -> knn_target _ c' = knn_target _ c -> knn_k _ c <= nrows data ->
  knn_predict (brute_search (F := R)) c' (map_rows n' T test) = knn_predict (brute_search (F := R)) c test.
Proof.
  intros W Wt Ct W' Wt' Hs Si S1 S2 K T1 Kn. unfold knn_predict. rewrite T1. destruct (knn_target _ c) as [t|]; auto.
  cbn [mrows map_rows]. unfold mwf, map_rows in Wt'. cbn [mrows mcols] in Wt'. rewrite Forall_forall in Wt'.
  assert (G : forall rows, (forall r, In r rows -> In r (mrows test)) -> forall r, In r rows ->
     brute_search (knn_searcher _ c') (T r) (knn_k _ c') = rfun (fun r => (fst r, map (Rmult s) (snd r))) (brute_search (knn_searcher _ c) r (knn_k _ c))).
  { intros rows I r Hr. rewrite S1, S2, K. apply brute_similar; auto.
    - rewrite <- Ct. apply In_row_len; auto.
    - apply Wt'. apply in_map. auto.
    - intros a b Ha Hb. apply Si; apply in_or_app; destruct Ha as [<-|Ha]; destruct Hb as [<-|Hb]; auto. }
  specialize (G (mrows test) (fun _ H => H)). induction (mrows test) as [|r rows IH]; auto. cbn [map rmap]. rewrite G by now left. cbn [rbind].
  destruct brute_search as [[i d]| |]; cbn [rfun rbind fst snd]; auto.
  rewrite IH; auto.
  - intros; apply Wt'. now right.
  - intros a b Ha Hb. apply Si; now right.
  - intros; apply G; now right.
Qed.

(** ** One neighbour *)
Lemma vote_single x l : is_vote [x] l -> l = x.
Proof. intros [[<-|[]] _]. reflexivity. Qed.
Lemma one_neighbour {F S : Type} {N : Num F} (se : S -> list F -> nat -> res (list nat * list F)) (c : KNNClassifier S) (data : matrix F) targets (Q : nat -> nat -> Prop) :
  knn_k _ c = 1 -> knn_target _ c = Some targets -> length targets = nrows data ->
  (forall i, i < nrows data -> exists idx ds, se (knn_searcher _ c) (nth i (mrows data) []) 1 = Ok (idx, ds) /\
      k_nearest (nrows data) 1 (fun j => dist (nth i (mrows data) []) (nth j (mrows data) [])) idx ds) ->
  (forall i j, i < nrows data -> j < nrows data -> nltb (dist (nth i (mrows data) []) (nth i (mrows data) [])) (dist (nth i (mrows data) []) (nth j (mrows data) [])) = false -> Q i j) ->
  (forall i j, i < nrows data -> j < nrows data -> i = j -> Q i j) ->
  exists out, knn_predict se c data = Ok out /\ length out = nrows data /\
    forall i, i < nrows data -> exists j, j < nrows data /\ Q i j /\ nth i out 0 = nth j targets 0.
Proof.
  intros K T L H HQ HQ'. destruct (predict_spec se c targets data T) as (out & E & Fo).
  - intros row Hr. apply (In_nth _ _ []) in Hr as (i & Hi & <-). destruct (H i Hi) as (idx & ds & E & (Ge & Li & _)). exists idx, ds. rewrite K.
    split; auto. split; [now destruct idx|]. intros j Hj. rewrite L. now apply Ge.
  - exists out. split; auto. assert (Lo : length out = nrows data) by (unfold nrows; clear - Fo; induction Fo; cbn; auto). split; auto.
    intros i Hi. assert (P : exists idx ds, se (knn_searcher _ c) (nth i (mrows data) []) (knn_k _ c) = Ok (idx, ds) /\ is_vote (map (fun i => nth i targets 0) idx) (nth i out 0)).
    { clear - Fo Hi. unfold nrows in Hi. revert i Hi. induction Fo; intros [|i] Hi; cbn in *; try lia; auto. apply IHFo. lia. }
    destruct P as (idx & ds & E1 & V). destruct (H i Hi) as (idx' & ds' & E2 & (Ge & Li & Nr)). rewrite K, E2 in E1. injection E1 as <- <-.
    destruct idx' as [|j [|]]; try discriminate. cbn in V. apply vote_single in V. assert (Hj : j < nrows data) by (apply Ge; now left).
    exists j. split; auto. split; auto. destruct (Nat.eq_dec i j) as [Eij|Eij]; [auto|]. apply HQ; auto. apply (Nr j i); auto; [now left|]. intros [X|[]]. congruence.
Qed.

Lemma dist_self_R (a : list R) : dist a a = 0%R.
Proof.
  unfold dist. cbn [nsqrt NumR]. rewrite <- R_sqrt.sqrt_0. f_equal. unfold vsum. cbn [nzero nadd NumR].
  assert (G : forall acc, fold_left Rplus (map2 (fun x y => ((x - y) * (x - y))%num) a a) acc = acc).
  { induction a as [|x a IH]; intros acc; cbn; auto. rewrite IH. cbn. ring. }
  apply G.
Qed.
Lemma sum_sq_0 (f : nat -> R) l : fold_right Rplus 0%R (map (fun j => (f j ^ 2)%R) l) = 0%R -> forall j, In j l -> f j = 0%R.
Proof.
  assert (P : forall l, (0 <= fold_right Rplus 0 (map (fun j => f j ^ 2) l))%R).
  { induction l0; cbn [map fold_right]; [lra|]. pose proof (pow2_ge_0 (f a)). lra. }
  induction l as [|a l IH]; cbn [map fold_right]; intros H j [].
  - subst. specialize (P l). pose proof (pow2_ge_0 (f j)). assert ((f j ^ 2 = 0)%R) by lra. rewrite <- Rsqr_pow2 in H1. now apply Rsqr_0_uniq.
  - apply IH; auto. specialize (P l). pose proof (pow2_ge_0 (f a)). lra.
Qed.
Lemma euclid_0 n (a b : list R) : length a = n -> length b = n -> (euclid n a b <= 0)%R -> a = b.
Proof.
  intros La Lb H. pose proof (euclid_nonneg n a b) as P. assert (E : euclid n a b = 0%R) by lra. unfold euclid in E. apply sqrt_eq_0 in E.
  - apply (nth_ext _ _ 0%R 0%R); [congruence|]. intros i Hi. assert (Z := sum_sq_0 (fun j => (nth j a 0 - nth j b 0)%R) (seq 0 n) E i). cbv beta in Z.
    assert (In i (seq 0 n)) by (apply in_seq; lia). specialize (Z H0). lra.
  - clear. induction (seq 0 n) as [|j l IH]; cbn [map fold_right]; [lra|]. pose proof (pow2_ge_0 (nth j a 0 - nth j b 0)%R). lra.
Qed.
Lemma k_near_dist (data : matrix R) i idx ds : mwf data -> i < nrows data ->
  k_nearest (nrows data) 1 (fun j => euclid (mcols data) (nth i (mrows data) []) (nth j (mrows data) [])) idx ds ->
  k_nearest (nrows data) 1 (fun j => dist (nth i (mrows data) []) (nth j (mrows data) [])) idx ds.
Proof.
  intros W Hi. apply k_nearest_ext. intros j Hj. symmetry. apply dist_euclid; now apply row_len.
Qed.
Lemma recalls_any {S} (se : S -> list R -> nat -> res (list nat * list R)) (c : KNNClassifier S) (data : matrix R) targets :
  mwf data -> knn_k _ c = 1 -> knn_target _ c = Some targets -> length targets = nrows data ->
  (forall i, i < nrows data -> exists idx ds, se (knn_searcher _ c) (nth i (mrows data) []) 1 = Ok (idx, ds) /\
      k_nearest (nrows data) 1 (fun j => euclid (mcols data) (nth i (mrows data) []) (nth j (mrows data) [])) idx ds) ->
  exists out, knn_predict se c data = Ok out /\ recalls data targets out.
Proof.
  intros W K T L H. apply (one_neighbour se c data targets (fun i j => nth j (mrows data) [] = nth i (mrows data) [])); auto.
  - intros i Hi. destruct (H i Hi) as (idx & ds & E & Q). exists idx, ds. split; auto. now apply k_near_dist.
  - intros i j Hi Hj Q. apply nltb_R_false in Q. rewrite dist_self_R, (dist_euclid (mcols data)) in Q by now apply row_len.
    symmetry. apply (euclid_0 (mcols data)); auto; now apply row_len.
  - intros i j _ _ ->. reflexivity.
Qed.
Theorem brute_recalls k (s0 : option (matrix R)) (t0 : option (list nat)) (data : matrix R) targets : k = 1 -> mwf data -> length targets = nrows data -> 0 < nrows data ->
  exists c' out, knn_train brute_builder {| knn_k := k; knn_searcher := s0; knn_target := t0 |} data targets = (c', Ok tt) /\
    knn_predict (brute_search (F := R)) c' data = Ok out /\ recalls data targets out.
Proof.
  intros -> W L NE.
  eexists. destruct (recalls_any (brute_search (F := R)) {| knn_k := 1; knn_searcher := Some data; knn_target := Some targets |} data targets) as (out & E & Q); auto.
  { intros i Hi. apply brute_real; auto; now apply row_len. }
  exists out. split; [|split; eassumption]. apply train_ok; cbn; auto.
Qed.
Theorem kd_recalls (c : KNNClassifier (option (node (F := R) (list R * list R) * matrix R))) (data : matrix R) targets fuel leafsize t :
  mwf data -> 0 < nrows data -> length targets = nrows data -> tree_build kd_split fuel leafsize data = Some (Ok t) ->
  knn_k _ c = 1 -> knn_searcher _ c = Some (t, data) -> knn_target _ c = Some targets ->
  exists out, knn_predict (tree_search kd_split) c data = Ok out /\ recalls data targets out.
Proof.
  intros W NE L B K Se T. apply recalls_any; auto. intros i Hi. rewrite Se.
  destruct (kd_exact_real data (nth i (mrows data) [])) as (_ & H & _); auto; [now apply row_len|]. eapply H; eauto.
Qed.
Theorem ball_recalls (c : KNNClassifier (option (node (F := R) (list R * R) * matrix R))) (data : matrix R) targets fuel leafsize t :
  mwf data -> 0 < nrows data -> length targets = nrows data -> tree_build ball_split fuel leafsize data = Some (Ok t) ->
  knn_k _ c = 1 -> knn_searcher _ c = Some (t, data) -> knn_target _ c = Some targets ->
  exists out, knn_predict (tree_search ball_split) c data = Ok out /\ recalls data targets out.
Proof.
  intros W NE L B K Se T. apply recalls_any; auto. intros i Hi. rewrite Se.
  destruct (ball_exact_real data (nth i (mrows data) [])) as (_ & H & _); auto; [now apply row_len|]. eapply H; eauto.
Qed.

(** ** ... in binary64 *)
Lemma sum_self_0 (a : list R) l : fold_right Rplus 0%R (map (fun j => ((nth j a 0 - nth j a 0) ^ 2)%R) l) = 0%R.
Proof. induction l as [|j l IH]; cbn [map fold_right]; auto. rewrite IH. ring. Qed.
Lemma nearly_any {S} (se : S -> list B64 -> nat -> res (list nat * list B64)) (c : KNNClassifier S) (data : matrix B64) targets :
  mwf data -> moderate_dim (mcols data) -> (forall r, In r (mrows data) -> moderate r) -> knn_k _ c = 1 -> knn_target _ c = Some targets -> length targets = nrows data ->
  (forall i, i < nrows data -> exists idx ds, se (knn_searcher _ c) (nth i (mrows data) []) 1 = Ok (idx, ds) /\
      k_nearest (nrows data) 1 (fun j => dist (nth i (mrows data) []) (nth j (mrows data) [])) idx ds) ->
  exists out, knn_predict se c data = Ok out /\ nearly_recalls data targets out.
Proof.
  intros W Md Mr K T L H. assert (Z : forall i, (true_dist (mcols data) (nth i (mrows data) []) (nth i (mrows data) []) = 0)%R).
  { intros i. unfold true_dist, euclid. rewrite sum_self_0. apply R_sqrt.sqrt_0. }
  assert (DC : forall i j, i < nrows data -> j < nrows data -> is_finite (dist (nth i (mrows data) []) (nth j (mrows data) [])) = true /\
     close_to (B2R (dist (nth i (mrows data) []) (nth j (mrows data) []))) (true_dist (mcols data) (nth i (mrows data) []) (nth j (mrows data) []))).
  { intros i j Hi Hj. destruct (dist_close (mcols data) (nth i (mrows data) []) (nth j (mrows data) [])) as (A & _ & B); auto; try (now apply row_len); apply Mr; now apply nth_In. }
  apply (one_neighbour se c data targets (fun i j => (true_dist (mcols data) (nth i (mrows data) []) (nth j (mrows data) []) <= bpow radix2 (-524))%R)); auto.
  - intros i j Hi Hj Q. destruct (DC i j Hi Hj) as [F1 C1]. destruct (DC i i Hi Hi) as [F2 C2]. apply nltb_finite_false in Q; auto.
    eapply Rle_trans; [eapply close_compare; eauto; apply euclid_nonneg|]. rewrite Z. lra.
  - intros i j _ _ ->. rewrite Z. apply bpow_ge_0.
Qed.
Theorem brute_nearly (s0 : option (matrix B64)) (t0 : option (list nat)) (data : matrix B64) targets : mwf data -> moderate_dim (mcols data) -> (forall r, In r (mrows data) -> moderate r) -> length targets = nrows data -> 0 < nrows data ->
  exists c' out, knn_train brute_builder {| knn_k := 1; knn_searcher := s0; knn_target := t0 |} data targets = (c', Ok tt) /\
    knn_predict (brute_search (F := B64)) c' data = Ok out /\ nearly_recalls data targets out.
Proof.
  intros W Md Mr L NE.
  eexists. destruct (nearly_any (brute_search (F := B64)) {| knn_k := 1; knn_searcher := Some data; knn_target := Some targets |} data targets) as (out & E & Q); auto.
  { intros i Hi. apply brute_b64; auto.
    - intros j Hj. apply moderate_finite, Mr. now apply nth_In.
    - apply moderate_finite, Mr. now apply nth_In. }
  exists out. split; [|split; eassumption]. apply train_ok; cbn; auto.
Qed.
Theorem kd_nearly (c : KNNClassifier (option (node (F := B64) (list B64 * list B64) * matrix B64))) (data : matrix B64) targets fuel leafsize t :
  mwf data -> moderate_dim (mcols data) -> (forall r, In r (mrows data) -> moderate r) -> 0 < nrows data -> length targets = nrows data ->
  tree_build kd_split fuel leafsize data = Some (Ok t) ->
  knn_k _ c = 1 -> knn_searcher _ c = Some (t, data) -> knn_target _ c = Some targets ->
  exists out, knn_predict (tree_search kd_split) c data = Ok out /\ nearly_recalls data targets out.
Proof.
  intros W Md Mr NE L B K Se T. apply nearly_any; auto. intros i Hi. rewrite Se. eapply kd_b64; eauto.
  - intros j Hj. apply moderate_finite, Mr. now apply nth_In.
  - apply moderate_finite, Mr. now apply nth_In.
  - now apply row_len.
Qed.
Lemma brute_similar_ok (data : matrix R) (point : list R) n' s T k idx ds : mwf data -> length point = mcols data -> mwf (map_rows n' T data) -> length (T point) = n' ->
  (0 < s)%R -> similarity (mcols data) n' s T (point :: mrows data) -> k <= nrows data ->
  brute_search (Some data) point k = Ok (idx, ds) -> brute_search (Some (map_rows n' T data)) (T point) k = Ok (idx, map (Rmult s) ds).
Proof. intros A B C D E G H K. rewrite (brute_similar data point n' s T k) by auto. now rewrite K. Qed.
