(** * What one NaN does to nearest-neighbour search, DBSCAN and k-means *)
From Coq Require Import List Arith Lia Bool Reals Permutation Relations.
From Flocq Require Import Core BinarySingleNaN.
From Verif Require Import Base BaseLemmas Num NumF NumOrd Linalg LinalgR Spec_Calc Model_KNN Spec_KNN Proof_KNearest Model_DBSCAN Spec_DBSCAN Proof_DBSCAN Proof_DBSCANEx Proof_DBSCAN2
  Model_KMeans Proof_KMeans Spec_NaN.
Import ListNotations.

(** ** NaN goes through arithmetic *)
Lemma nan_add (x y : B64) : nnan x = true \/ nnan y = true -> nnan (nadd x y) = true.
Proof. intros [H|H]; cbn in *; destruct x; try discriminate; destruct y; try discriminate; auto. Qed.
Lemma nan_sub (x y : B64) : nnan x = true \/ nnan y = true -> nnan (nsub x y) = true.
Proof. intros [H|H]; cbn in *; destruct x; try discriminate; destruct y; try discriminate; auto. Qed.
Lemma nan_mul (x y : B64) : nnan x = true \/ nnan y = true -> nnan (nmul x y) = true.
Proof. intros [H|H]; cbn in *; destruct x; try discriminate; destruct y; try discriminate; auto. Qed.
Lemma nan_div (x y : B64) : nnan x = true \/ nnan y = true -> nnan (ndiv x y) = true.
Proof. intros [H|H]; cbn in *; destruct x; try discriminate; destruct y; try discriminate; auto. Qed.
Lemma nan_sqrt (x : B64) : nnan x = true -> nnan (nsqrt x) = true.
Proof. destruct x; try discriminate; auto. Qed.
Lemma nan_fold (l : list B64) a : nnan a = true \/ (exists x, In x l /\ nnan x = true) -> nnan (fold_left nadd l a) = true.
Proof.
  revert a. induction l as [|y l IH]; intros a H; cbn [fold_left].
  - destruct H as [H|(x & [] & _)]; exact H.
  - apply IH. destruct H as [H|(x & [->|Hx] & H)].
    + left. apply nan_add. now left.
    + left. apply nan_add. now right.
    + right. now exists x.
Qed.
Lemma nan_vsum (l : list B64) : (exists x, In x l /\ nnan x = true) -> nnan (vsum l) = true.
Proof. intros H. apply nan_fold. now right. Qed.
Lemma map2_in {A B C} (f : A -> B -> C) a b j da db : j < length a -> j < length b -> In (f (nth j a da) (nth j b db)) (map2 f a b).
Proof.
  revert b j. induction a as [|x a IH]; intros [|y b] j Ha Hb; cbn in *; try lia. destruct j; [now left|]. right. apply IH; lia.
Qed.
Lemma sub_nan (a b : list B64) : length a = length b -> has_nan a \/ has_nan b -> exists j, j < length a /\ nnan (nsub (nth j a nzero) (nth j b nzero)) = true.
Proof. intros E [(j & L & H)|(j & L & H)]; exists j; (split; [lia|]); apply nan_sub; auto. Qed.
Lemma dist_nan (a b : list B64) : length a = length b -> has_nan a \/ has_nan b -> nnan (dist a b) = true.
Proof.
  intros E H. destruct (sub_nan a b E H) as (j & L & Hj). apply nan_sqrt, nan_vsum.
  eexists. split; [apply (map2_in (fun x y : B64 => nmul (nsub x y) (nsub x y)) a b j nzero nzero); lia|]. apply nan_mul. now left.
Qed.
Lemma vsub_nan (a b : list B64) : length a = length b -> has_nan a \/ has_nan b -> exists x, In x (velemul (vsub a b) (vsub a b)) /\ nnan x = true.
Proof.
  intros E H. destruct (sub_nan a b E H) as (j & L & Hj).
  assert (Lv : length (vsub a b) = length a) by (unfold vsub; rewrite map2_length; lia).
  exists (nmul (nth j (vsub a b) nzero) (nth j (vsub a b) nzero)). split; [apply (map2_in nmul _ _ j nzero nzero); lia|].
  apply nan_mul. left. unfold vsub. rewrite map2_nth with (da := nzero) (db := nzero) by lia. exact Hj.
Qed.
Lemma edist_nan (a b : list B64) : length a = length b -> has_nan a \/ has_nan b -> nnan (edist a b) = true.
Proof. intros E H. apply nan_sqrt. unfold dot. apply nan_vsum. exact (vsub_nan a b E H). Qed.
Lemma sqdist_nan (a b : list B64) : length a = length b -> has_nan a \/ has_nan b -> nnan (sqdist a b) = true.
Proof. intros E H. apply nan_vsum. exact (vsub_nan a b E H). Qed.
Lemma nan_lt_l (x y : B64) : nnan x = true -> nltb x y = false.
Proof. intros H. destruct (nltb x y) eqn:E; auto. apply no_nan in E. destruct E; congruence. Qed.
Lemma nan_lt_r (x y : B64) : nnan y = true -> nltb x y = false.
Proof. intros H. destruct (nltb x y) eqn:E; auto. apply no_nan in E. destruct E; congruence. Qed.

(** ** Nearest-neighbour search *)
Section Rename.
  Context {F : Type} {N : Num F} (g : nat -> nat).
  Definition ren (p : nat * F) : nat * F := (g (fst p), snd p).
  Lemma ridx_map {A B} (f : A -> B) l i : ridx (map f l) i = match ridx l i with Ok x => Ok (f x) | Err e => Err e | Panic => Panic end.
  Proof. unfold ridx. rewrite nth_error_map. now destruct (nth_error l i). Qed.
  Lemma ridx_cases {A} (l : list A) i : (exists x, ridx l i = Ok x) \/ ridx l i = Panic.
  Proof. unfold ridx. destruct (nth_error l i); eauto. Qed.
  Lemma vec_insert_map {A B} (f : A -> B) i x l : vec_insert i (f x) (map f l) = map f (vec_insert i x l).
  Proof. unfold vec_insert. now rewrite map_app, firstn_map, skipn_map. Qed.
  Definition rres (r : res pairs) : res pairs := match r with Ok l => Ok (map ren l) | Err e => Err e | Panic => Panic end.
  Lemma scan_ren p j ps : add_scan j (map ren ps) (ren p) = rres (add_scan j ps p).
  Proof.
    induction j; cbn [add_scan].
    - cbn [rres]. now rewrite vec_insert_map.
    - rewrite ridx_map. destruct (ridx_cases ps j) as [(q & ->)| ->]; cbn [rbind]; [|reflexivity]. cbn [snd ren].
      destruct (nltb (snd q) (snd p)); [cbn [rres]; now rewrite vec_insert_map|apply IHj].
  Qed.
  Lemma removelast_map {A B} (f : A -> B) l : removelast (map f l) = map f (removelast l).
  Proof. induction l as [|x [|y l] IH]; auto. cbn [map removelast] in *. now rewrite IH. Qed.
  Lemma add_ren k ps i d : knearest_add k (map ren ps) (g i) d =
    match knearest_add k ps i d with Ok (l, c) => Ok (map ren l, c) | Err e => Err e | Panic => Panic end.
  Proof.
    unfold knearest_add. rewrite map_length, ridx_map. destruct (ridx_cases ps (length ps - 1)) as [(q & ->)| ->]; cbn [rbind]; [|reflexivity].
    cbn [snd ren]. destruct (nltb (snd q) d).
    - set (l := if (length ps <? k) then ps ++ [(i, d)] else ps).
      assert (E : (if length ps <? k then map ren ps ++ [(g i, d)] else map ren ps) = map ren l).
      { unfold l. destruct (length ps <? k); auto. now rewrite map_app. }
      rewrite E, ridx_map. destruct (ridx_cases l (if length ps <? k then length ps else length ps - 1)) as [(q' & ->)| ->]; reflexivity.
    - set (l := if (k <=? length ps) then removelast ps else ps).
      assert (E : (if k <=? length ps then removelast (map ren ps) else map ren ps) = map ren l).
      { unfold l. destruct (k <=? length ps); auto. apply removelast_map. }
      rewrite E. change (g i, d) with (ren (i, d)). rewrite scan_ren. destruct (add_scan (length ps - 1) l (i, d)) as [l'| |]; cbn [rres rbind]; auto.
      rewrite ridx_map. destruct (ridx_cases l' (if length ps <? k then length ps else length ps - 1)) as [(q' & ->)| ->]; reflexivity.
  Qed.
  Lemma offer_ren k cands : forall ps cur, offer k (map ren cands) (map ren ps) cur = rres (offer k cands ps cur).
  Proof.
    induction cands as [|[i d] cands IH]; intros ps cur; cbn [offer map]; [reflexivity|]. cbn [ren fst snd].
    destruct (nltb d cur); [|apply IH]. rewrite add_ren. destruct (knearest_add k ps i d) as [[l c]| |]; cbn [rbind]; auto.
  Qed.
End Rename.
Lemma offer_app {F} {N : Num F} k a : forall b ps cur i d, (forall c, nltb d c = false) -> offer k (a ++ (i, d) :: b) ps cur = offer k (a ++ b) ps cur.
Proof.
  induction a as [|[j e] a IH]; intros b ps cur i d H; cbn [offer app].
  - now rewrite H.
  - destruct (nltb e cur); [|now apply IH]. destruct (knearest_add k ps j e) as [[l c]| |]; cbn [rbind]; auto.
Qed.
Lemma combine_ren {A} (g : nat -> nat) n s s' (l : list A) : length l = n -> (forall i, i < n -> g (s + i) = s' + i) ->
  map (fun p => (g (fst p), snd p)) (combine (seq s n) l) = combine (seq s' n) l.
Proof.
  revert n s s'. induction l as [|x l IH]; intros [|n] s s' L H; cbn in *; try lia; auto. f_equal.
  - f_equal. specialize (H 0 ltac:(lia)). now rewrite !Nat.add_0_r in H.
  - apply IH; [lia|]. intros i Hi. specialize (H (S i) ltac:(lia)). rewrite !Nat.add_succ_r in H. exact H.
Qed.
Lemma combine_app_len {A B} (a : list A) : forall (b : list B) a' b', length a = length b -> combine (a ++ a') (b ++ b') = combine a b ++ combine a' b'.
Proof. induction a as [|x a IH]; intros [|y b] a' b' L; cbn in *; try discriminate; auto. f_equal. apply IH. lia. Qed.

Lemma get_distances_ok (data : matrix B64) x ids : ids <> [] -> (forall i, In i ids -> i < nrows data) ->
  get_distances data x ids = Ok (map (fun i => dist x (nth i (mrows data) [])) ids).
Proof.
  intros Ne H. unfold get_distances. destruct ids as [|i0 ids]; [congruence|]. cbn [rassert].
  revert H. generalize (i0 :: ids). clear. intros l H. induction l as [|i l IH]; cbn [rmap]; auto.
  rewrite (ridx_nth _ i []) by (apply H; now left). cbn [rbind]. rewrite IH by (intros; apply H; now right). reflexivity.
Qed.
Lemma firstk_in (k : nat) : forall i, In i (seq 0 k) -> i < k. Proof. intros i H. apply in_seq in H. lia. Qed.

Lemma cut_nth {A} (d : A) : forall t l, t < length l -> l = firstn t l ++ nth t l d :: skipn (S t) l.
Proof. induction t; intros [|x l] H; cbn in H |- *; try lia; auto. f_equal. apply IHt. lia. Qed.

Lemma first_in {A} n (l : list A) x : In x (firstn n l) -> In x l.
Proof. intros H. rewrite <- (firstn_skipn n l). apply in_or_app. now left. Qed.

(** A NaN row that is not among the first [k] is as good as absent. *)
Theorem nan_skipped (data : matrix B64) x k t : mwf data -> length x = mcols data -> 1 <= k <= t -> t < nrows data -> has_nan (nth t (mrows data) []) ->
  brute_search (Some data) x k = renumber t (brute_search (Some (drop_row t data)) x k).
Proof.
  intros W L Hk Ht Hn. pose proof W as W'. unfold mwf in W'. rewrite Forall_forall in W'.
  assert (Lt : length (nth t (mrows data) []) = mcols data) by (apply W', nth_In; exact Ht).
  unfold nrows in Ht. set (rows := mrows data) in *. set (a := firstn t rows). set (b := skipn (S t) rows).
  assert (Er : rows = a ++ nth t rows [] :: b) by (unfold a, b; apply cut_nth; exact Ht).
  assert (La : length a = t) by (unfold a; rewrite firstn_length; lia).
  assert (Lb : length b = length rows - S t) by (unfold b; apply skipn_length).
  unfold brute_search. assert (Nz : seq 0 k <> []) by (destruct k; [lia|discriminate]).
  rewrite !get_distances_ok; auto.
  2:{ intros i Hi. apply firstk_in in Hi. unfold nrows, drop_row. cbn [mrows]. fold rows a b. rewrite app_length, La. lia. }
  2:{ intros i Hi. apply firstk_in in Hi. unfold nrows. fold rows. lia. }
  cbn [rbind].
  assert (E0 : map (fun i => dist x (nth i (mrows (drop_row t data)) [])) (seq 0 k) = map (fun i => dist x (nth i (mrows data) [])) (seq 0 k)).
  { apply map_ext_in. intros i Hi. apply firstk_in in Hi. unfold drop_row. cbn [mrows]. fold rows a b. rewrite Er at 1. rewrite Er. rewrite !app_nth1 by lia. reflexivity. }
  rewrite E0. set (D0 := map (fun i => dist x (nth i (mrows data) [])) (seq 0 k)).
  unfold knearest_new. destruct ((2 <=? length (combine (seq 0 k) D0)) && existsb (fun p => nnan (snd p)) (combine (seq 0 k) D0)); [reflexivity|]. cbn [rbind].
  set (q := firstn k (sort_pairs (combine (seq 0 k) D0))).
  assert (Rq : @map (nat * B64) (nat * B64) (ren (past t)) q = q).
  { transitivity (map (fun p => p) q); [|apply map_id]. apply map_ext_in. intros [i d] Hi.
    assert (Hi' : In (i, d) (combine (seq 0 k) D0)).
    { apply first_in in Hi. eapply Permutation_in; [apply Permutation_sym, sort_pairs_perm|exact Hi]. }
    apply in_combine_l in Hi'. apply firstk_in in Hi'. unfold ren, past. cbn [fst snd]. destruct (Nat.ltb_spec i t); [reflexivity|lia]. }
  assert (EC : forall cur, offer k (combine (seq k (nrows data - k)) (map (dist x) (skipn k (mrows data)))) q cur =
    rres (past t) (offer k (combine (seq k (nrows (drop_row t data) - k)) (map (dist x) (skipn k (mrows (drop_row t data))))) q cur)).
  { intros cur. rewrite <- offer_ren, Rq. fold rows. unfold nrows, drop_row. cbn [mrows]. fold rows a b.
    assert (Sk : skipn k rows = skipn k a ++ nth t rows [] :: b) by (rewrite Er at 1; rewrite skipn_app, La; replace (k - t) with 0 by lia; reflexivity).
    assert (Sk' : skipn k (a ++ b) = skipn k a ++ b) by (rewrite skipn_app, La; replace (k - t) with 0 by lia; reflexivity).
    assert (Lk : length (skipn k a) = t - k) by (rewrite skipn_length; lia).
    rewrite Sk, Sk', !map_app. cbn [map].
    replace (length rows - k) with ((t - k) + (1 + length b)) by lia.
    replace (length (a ++ b) - k) with ((t - k) + length b) by (rewrite app_length; lia).
    rewrite !seq_app. replace (k + (t - k)) with t by lia. cbn [seq app].
    rewrite !combine_app_len by (rewrite seq_length, map_length; lia). cbn [combine].
    rewrite offer_app by (intros c; apply nan_lt_l, dist_nan; [congruence|now right]).
    rewrite map_app. f_equal. f_equal.
    - symmetry. apply (combine_ren (past t)); [rewrite map_length; lia|]. intros i Hi. unfold past. destruct (Nat.ltb_spec (k + i) t); lia.
    - symmetry. replace (t + 1) with (S t) by lia. apply (combine_ren (past t)); [rewrite map_length; lia|]. intros i Hi. unfold past. destruct (Nat.ltb_spec (t + i) t); lia. }
  assert (F : forall r : res (list (nat * B64)), (let? q' := rres (past t) r in Ok (get_results q')) = renumber t (let? q' := r in Ok (get_results q'))).
  { intros [l| |]; cbn [rres rbind renumber]; auto. unfold get_results. cbn [renumber]. rewrite !map_map. reflexivity. }
  destruct (knearest_dist k q) as [cur| |]; cbn [rbind]; auto. rewrite EC. apply F.
Qed.

Lemma row_len (X : matrix B64) i : mwf X -> i < nrows X -> length (nth i (mrows X) []) = mcols X.
Proof. intros W H. unfold mwf in W. rewrite Forall_forall in W. apply W, nth_In, H. Qed.

(** With two or more neighbours, a NaN among the distances of the first [k] rows makes the sort panic. *)
Theorem nan_panics (data : matrix B64) x k i : mwf data -> length x = mcols data -> 2 <= k <= nrows data -> i < k ->
  has_nan x \/ has_nan (nth i (mrows data) []) -> brute_search (Some data) x k = Panic.
Proof.
  intros W L Hk Hi H. unfold brute_search. rewrite get_distances_ok.
  2:{ destruct k; [lia|discriminate]. } 2:{ intros j Hj. apply firstk_in in Hj. lia. }
  cbn [rbind]. unfold knearest_new.
  set (D := map (fun i => dist x (nth i (mrows data) [])) (seq 0 k)).
  assert (Lc : length (combine (seq 0 k) D) = k) by (rewrite combine_length; unfold D; rewrite map_length, seq_length; lia).
  assert (Ex : existsb (fun p => nnan (snd p)) (combine (seq 0 k) D) = true).
  { apply existsb_exists. exists (nth i (combine (seq 0 k) D) (0, nzero)). split; [apply nth_In; lia|].
    rewrite combine_nth by (unfold D; rewrite map_length; reflexivity). cbn [snd]. unfold D.
    rewrite (nth_indep _ nzero (dist x (nth 0 (mrows data) []))) by (rewrite map_length, seq_length; lia).
    rewrite (map_nth (fun i => dist x (nth i (mrows data) []))), seq_nth by lia. apply dist_nan; [|exact H].
    cbn [Nat.add]. rewrite row_len by (auto; lia). exact L. }
  rewrite Lc, Ex. destruct (Nat.leb_spec 2 k); [reflexivity|lia].
Qed.

(** With one neighbour, a NaN distance of row 0 wins over all others. *)
Lemma offer_nan k cands : forall (ps : list (nat * B64)) cur, nnan cur = true -> offer k cands ps cur = Ok ps.
Proof. induction cands as [|[i d] cands IH]; intros ps cur H; cbn [offer]; auto. rewrite nan_lt_r by auto. now apply IH. Qed.
Theorem nan_first (data : matrix B64) x : mwf data -> length x = mcols data -> 1 <= nrows data ->
  has_nan x \/ has_nan (nth 0 (mrows data) []) -> exists d, brute_search (Some data) x 1 = Ok ([0], [d]) /\ nnan d = true.
Proof.
  intros W L Hn H. exists (dist x (nth 0 (mrows data) [])).
  assert (Dn : nnan (dist x (nth 0 (mrows data) [])) = true) by (apply dist_nan; auto; rewrite row_len by auto; exact L).
  split; [|exact Dn]. unfold brute_search. rewrite get_distances_ok; [|discriminate|intros j Hj; apply firstk_in in Hj; lia].
  cbn [rbind seq map]. unfold knearest_new. cbn [combine length Nat.leb andb sort_pairs sort_insert firstn rbind]. unfold knearest_dist. cbn [length Nat.ltb Nat.leb Nat.sub ridx nth_error rbind snd].
  rewrite offer_nan by exact Dn. reflexivity.
Qed.

(** ... so a one-neighbour classifier then answers with the target of row 0 whatever it is asked. *)
Theorem nan_classifier (data Z : matrix B64) targets s0 t0 l : mwf data -> mwf Z -> mcols Z = mcols data -> nrows data = S (length l) -> targets = nth 0 targets 0 :: l ->
  has_nan (nth 0 (mrows data) []) ->
  let '(m, r) := knn_train (fun _ d => Ok (Some d)) {| knn_k := 1; knn_searcher := s0; knn_target := t0 |} data targets in
  r = Ok tt /\ knn_predict brute_search m Z = Ok (repeat (nth 0 targets 0) (nrows Z)).
Proof.
  intros W Wz E Hn Ht H. unfold knn_train. cbn [knn_k].
  assert (Lt : length targets = nrows data) by (rewrite Ht, Hn; reflexivity).
  rewrite Lt, Nat.eqb_refl. cbn [negb]. destruct (Nat.ltb_spec (nrows data) 1); [lia|]. cbn [knn_searcher]. split; [reflexivity|].
  unfold knn_predict. cbn [knn_target knn_searcher knn_k]. unfold nrows at 1. unfold mwf in Wz. revert Wz. rewrite E. induction (mrows Z) as [|z rows IH]; intros Wz; [reflexivity|].
  inversion_clear Wz. cbn [rmap]. destruct (nan_first data z W ltac:(assumption) ltac:(lia) (or_intror H)) as (d & -> & _). cbn [rbind fst rmap].
  rewrite (ridx_nth targets 0 0) by lia. cbn [rbind].
  match goal with |- context [vote ?v] => change (vote v) with (Ok (nth 0 targets 0)) end. cbn [rbind]. rewrite IH by auto. reflexivity.
Qed.

(** ** Trees *)
Lemma select_nan (data : matrix B64) fuel : forall remains x dmax y dmin, nnan x = true -> select_split (F := B64) fuel data remains (y :: dmin) (x :: dmax) = None.
Proof.
  induction fuel as [|fuel IH]; intros remains x dmax y dmin H; cbn [select_split]; auto.
  cbn [vsub map2 argmax].
  assert (Hn : nnan (nsub x y) = true) by (apply nan_sub; now left).
  assert (G0 : forall l i, argbest (fun v m => nltb m v) l i 0 (nsub x y) = (0, nsub x y)).
  { induction l as [|z l IHl]; intros i; cbn [argbest]; auto. rewrite nan_lt_l by auto. apply IHl. }
  rewrite G0. cbn [nth].
  set (s := nadd y (ndiv (nsub x y) (nadd nonev nonev))).
  assert (Hs : nnan s = true) by (apply nan_add; right; apply nan_div; now left).
  assert (El : filter (fun r => nltb (nth 0 (nth r (mrows data) []) nzero) s) remains = []).
  { clear - Hs. clearbody s. induction remains as [|r l IHr]; cbn [filter]; auto. rewrite nan_lt_r by auto. exact IHr. }
  rewrite El. cbn [vset]. apply IH, H.
Qed.
Theorem nan_tree {G} (B : BinarySplit G) (data : matrix B64) leafsize : mwf data -> 0 < mcols data -> 0 < nrows data -> leafsize <= nrows data ->
  nnan (nth 0 (nth 0 (mrows data) []) nzero) = true -> forall fuel, tree_build B fuel leafsize data = None.
Proof.
  intros W Hc Hn Hl H fuel. unfold tree_build, data_min, data_max. unfold nrows in Hn.
  destruct (mrows data) as [|r0 rows] eqn:Er; [cbn in Hn; lia|].
  assert (L0 : length r0 = mcols data) by (unfold mwf in W; rewrite Er in W; now inversion W).
  assert (K : forall (cmp : B64 -> B64 -> bool), (forall a b, nnan a = true -> cmp a b = false) ->
    forall l x acc, nnan x = true -> Forall (fun r => 0 < length r) l ->
    exists acc', fold_left (fun acc row => map2 (fun r v => if cmp r v then v else r) acc row) l (x :: acc) = x :: acc').
  { intros cmp Hcmp. induction l as [|r l IH]; intros x acc Hx Fl; cbn [fold_left]; [now exists acc|]. inversion Fl; subst. destruct r as [|v r]; [cbn in *; lia|].
    cbn [map2]. rewrite Hcmp by auto. apply IH; auto. }
  destruct r0 as [|x r0]; [cbn in L0; lia|]. cbn [nth] in H.
  assert (Fl : Forall (fun r => 0 < length r) ((x :: r0) :: rows)).
  { unfold mwf in W. rewrite Er in W. eapply Forall_impl; [|exact W]. cbn beta. intros; lia. }
  destruct (K (fun r v => nltb v r) ltac:(intros; now apply nan_lt_r) _ x r0 H Fl) as (a1 & E1).
  destruct (K (fun r v => nltb r v) ltac:(intros; now apply nan_lt_l) _ x r0 H Fl) as (a2 & E2).
  cbn beta in E1, E2. rewrite E1, E2. destruct fuel as [|fuel]; [reflexivity|]. cbn [split]. rewrite seq_length.
  destruct (Nat.ltb_spec (nrows data) leafsize); [lia|]. now rewrite select_nan.
Qed.

(** ** DBSCAN *)
Lemma near_nan (data : matrix B64) eps t j : mwf data -> t < nrows data -> j < nrows data -> has_nan (nth t (mrows data) []) ->
  nltb (edist (nth t (mrows data) []) (nth j (mrows data) [])) eps = false /\ nltb (edist (nth j (mrows data) []) (nth t (mrows data) [])) eps = false.
Proof.
  intros W Ht Hj H. split; apply nan_lt_l, edist_nan; auto; rewrite !row_len by auto; reflexivity.
Qed.
(** Near relations that agree after renumbering have the same cores and chains. *)
Lemma past_inj t i j : past t i = past t j -> i = j.
Proof. unfold past. destruct (Nat.ltb_spec i t), (Nat.ltb_spec j t); lia. Qed.
Lemma past_ne t j : past t j <> t.
Proof. unfold past. destruct (Nat.ltb_spec j t); lia. Qed.
Definition back (t j : nat) : nat := if j <? t then j else j - 1.
Lemma past_back t j : j <> t -> past t (back t j) = j.
Proof. unfold past, back. intros. destruct (Nat.ltb_spec j t); [destruct (Nat.ltb_spec j t); lia|]. destruct (Nat.ltb_spec (j - 1) t); lia. Qed.
Lemma back_past t j : back t (past t j) = j.
Proof. apply (past_inj t). apply past_back, past_ne. Qed.
Section Iso.
  Context (n t : nat) (near near' : nat -> nat -> Prop) (mp : nat) (Ht : t < n) (Hmp : 1 <= mp).
  Context (Iso : forall i j, i < n - 1 -> j < n - 1 -> (near' i j <-> near (past t i) (past t j))).
  Context (Off : forall j, j < n -> ~ near t j /\ ~ near j t).
  Lemma past_lt i : i < n - 1 <-> past t i < n.
  Proof. unfold past. destruct (Nat.ltb_spec i t); lia. Qed.
  Lemma core_t : ~ core n near mp t.
  Proof. intros (_ & S & _ & L & H). destruct S as [|j S]; cbn in L; [lia|]. destruct (H j (or_introl eq_refl)) as (Hj & Nj). exact (proj1 (Off j Hj) Nj). Qed.
  Lemma nodup_map_inj {A B} (f : A -> B) l : (forall x y, In x l -> In y l -> f x = f y -> x = y) -> NoDup l -> NoDup (map f l).
  Proof.
    intros Hf H. induction H as [|x l Hx _ IH]; cbn; constructor.
    - rewrite in_map_iff. intros (y & E & Hy). apply Hx. rewrite (Hf x y); auto. now left. now right.
    - apply IH. intros; apply Hf; auto; now right.
  Qed.
  Lemma core_iso i : core (n - 1) near' mp i <-> core n near mp (past t i).
  Proof.
    split; intros (Hi & S & ND & L & H).
    - split; [now apply past_lt|]. exists (map (past t) S). split; [apply nodup_map_inj; auto; intros x y _ _; apply past_inj|]. split; [now rewrite map_length|].
      intros j Hj. apply in_map_iff in Hj. destruct Hj as (j' & <- & Hj'). destruct (H j' Hj') as (A & B). split; [now apply past_lt|]. now apply Iso.
    - apply past_lt in Hi. split; auto.
      assert (Nt : forall j, In j S -> j <> t). { intros j Hj ->. destruct (H t Hj) as (_ & B). exact (proj2 (Off (past t i) ltac:(now apply past_lt)) B). }
      exists (map (back t) S). split; [apply nodup_map_inj; auto; intros x y Hx Hy E; rewrite <- (past_back t x), <- (past_back t y) by auto; now rewrite E|].
      split; [now rewrite map_length|]. intros j Hj. apply in_map_iff in Hj. destruct Hj as (j' & <- & Hj'). destruct (H j' Hj') as (A & B).
      assert (Lb : back t j' < n - 1) by (apply past_lt; rewrite past_back; auto).
      split; auto. apply Iso; auto. rewrite past_back; auto.
  Qed.
  Lemma chain_up i j : chain (n - 1) near' mp i j -> chain n near mp (past t i) (past t j).
  Proof.
    intros H. induction H as [x y (A & B & C)|x|x y z _ IH1 _ IH2].
    - apply rt_step. split; [now apply core_iso|]. split; [now apply core_iso|]. apply Iso; auto. apply A. apply B.
    - apply rt_refl.
    - eapply rt_trans; eassumption.
  Qed.
  Lemma chain_down a b : chain n near mp a b -> forall i j, a = past t i -> b = past t j -> chain (n - 1) near' mp i j.
  Proof.
    intros H. apply clos_rt_rt1n in H. induction H as [x|x y z (A & B & C) _ IH]; intros i j -> Ej.
    - apply past_inj in Ej. subst. apply rt_refl.
    - assert (Ny : y <> t) by (intros ->; exact (core_t B)).
      eapply rt_trans; [apply rt_step|exact (IH (back t y) j (eq_sym (past_back t y Ny)) Ej)].
      assert (A' : core (n - 1) near' mp i) by now apply core_iso.
      assert (B' : core (n - 1) near' mp (back t y)) by (apply core_iso; now rewrite past_back).
      split; [exact A'|]. split; [exact B'|]. apply Iso; [apply A'|apply B'|]. now rewrite past_back.
  Qed.
  Lemma labels_iso lab : density_labels n near mp lab -> density_labels (n - 1) near' mp (map (fun i => nth (past t i) lab None) (seq 0 (n - 1))) /\ nth t lab None = None.
  Proof.
    intros (Ln & Hc & Hs & Ho).
    assert (Nt : nth t lab None = None). { destruct (nth t lab None) eqn:E; auto. exfalso. apply core_t. apply (Hc t Ht). now rewrite E. }
    assert (V : forall i, i < n - 1 -> nth i (map (fun i => nth (past t i) lab None) (seq 0 (n - 1))) None = nth (past t i) lab None).
    { intros i Hi. rewrite (nth_indep _ None (nth (past t 0) lab None)) by (rewrite map_length, seq_length; lia).
      rewrite (map_nth (fun i => nth (past t i) lab None)), seq_nth by lia. reflexivity. }
    assert (V' : forall i c, nth i (map (fun i => nth (past t i) lab None) (seq 0 (n - 1))) None = Some c -> i < n - 1).
    { intros i c E. destruct (Nat.lt_ge_cases i (n - 1)); auto. rewrite nth_overflow in E by (rewrite map_length, seq_length; lia). discriminate. }
    split; [|exact Nt]. split; [now rewrite map_length, seq_length|]. split; [|split].
    - intros i Hi. rewrite V by auto. rewrite core_iso. apply Hc. now apply past_lt.
    - intros i j Ci Cj. rewrite !V by (apply Ci || apply Cj). rewrite core_iso in Ci, Cj. rewrite (Hs _ _ Ci Cj). split.
      + intros H. now apply (chain_down _ _ H).
      + apply chain_up.
    - intros i c c' E L. pose proof (V' _ _ E) as Hi. rewrite V in E by auto. destruct (Ho _ _ _ E L) as (j & Hj & Ej).
      assert (Nj : j <> t) by (intros ->; congruence).
      assert (Lb : back t j < i). { unfold back, past in *. destruct (Nat.ltb_spec j t), (Nat.ltb_spec i t); lia. }
      exists (back t j). split; auto. rewrite V by lia. now rewrite past_back.
  Qed.
End Iso.

Lemma drop_nth (data : matrix B64) t i : t < nrows data -> nth i (mrows (drop_row t data)) [] = nth (past t i) (mrows data) [].
Proof.
  intros Ht. unfold nrows in Ht. unfold drop_row, past. cbn [mrows]. rewrite (cut_nth [] t (mrows data) Ht) at 3.
  assert (La : length (firstn t (mrows data)) = t) by (rewrite firstn_length; lia).
  destruct (Nat.ltb_spec i t); [rewrite !app_nth1 by lia; reflexivity|]. rewrite !app_nth2 by lia. rewrite La. replace (S i - t) with (S (i - t)) by lia. reflexivity.
Qed.
Lemma drop_rows (data : matrix B64) t : t < nrows data -> nrows (drop_row t data) = nrows data - 1.
Proof. intros Ht. unfold nrows in *. unfold drop_row. cbn [mrows]. rewrite app_length, firstn_length, skipn_length. lia. Qed.

(** A NaN row is labelled noise and the other rows get the labels they would get without it. *)
Theorem nan_dbscan (data : matrix B64) eps mp t : mwf data -> 1 <= mp -> t < nrows data -> has_nan (nth t (mrows data) []) ->
  exists w k w' k', clustering eps mp data (nrows data) = Some (w, k) /\ clustering eps mp (drop_row t data) (nrows (drop_row t data)) = Some (w', k') /\
    nth t (w_clusters w) None = None /\ w_clusters w' = map (fun i => nth (past t i) (w_clusters w) None) (seq 0 (nrows data - 1)) /\ k = k'.
Proof.
  intros W Hmp Ht H. destruct (clusters_b64 eps mp data) as (w & k & E & D & Lt & Ex). destruct (clusters_b64 eps mp (drop_row t data)) as (w' & k' & E' & D' & Lt' & Ex').
  exists w, k, w', k'. split; [exact E|]. split; [exact E'|]. rewrite drop_rows in D' by auto.
  destruct (labels_iso (nrows data) t (fun i j => nltb (edist (nth i (mrows data) []) (nth j (mrows data) [])) eps = true)
    (fun i j => nltb (edist (nth i (mrows (drop_row t data)) []) (nth j (mrows (drop_row t data)) [])) eps = true) mp) with (lab := w_clusters w) as (A & B); auto.
  - intros i j _ _. rewrite !drop_nth by auto. reflexivity.
  - intros j Hj. destruct (near_nan data eps t j W Ht Hj H) as (N1 & N2). rewrite N1, N2. split; discriminate.
  - split; [exact B|]. pose proof (density_unique _ _ _ _ _ D' A) as U. split; [exact U|].
    assert (P : forall c, c < k <-> c < k').
    { intros c. split; intros Hc.
      - destruct (Ex c Hc) as (i & Ei). assert (Ni : i <> t) by (intros ->; congruence).
        assert (Li : i < nrows data). { destruct D as (Ll & _). destruct (Nat.lt_ge_cases i (nrows data)); auto. rewrite nth_overflow in Ei by lia. discriminate. }
        apply (Lt' (back t i)). rewrite U.
        assert (Lb : back t i < nrows data - 1) by (unfold back; destruct (Nat.ltb_spec i t); lia).
        rewrite (nth_indep _ None (nth (past t 0) (w_clusters w) None)) by (rewrite map_length, seq_length; lia).
        rewrite (map_nth (fun i => nth (past t i) (w_clusters w) None)), seq_nth by lia. cbn [Nat.add]. now rewrite past_back.
      - destruct (Ex' c Hc) as (i & Ei). rewrite U in Ei.
        assert (Li : i < nrows data - 1). { destruct (Nat.lt_ge_cases i (nrows data - 1)); auto. rewrite nth_overflow in Ei by (rewrite map_length, seq_length; lia). discriminate. }
        rewrite (nth_indep _ None (nth (past t 0) (w_clusters w) None)) in Ei by (rewrite map_length, seq_length; lia).
        rewrite (map_nth (fun i => nth (past t i) (w_clusters w) None)), seq_nth in Ei by lia. exact (Lt _ _ Ei). }
    destruct (Nat.lt_trichotomy k k') as [C|[C|C]]; auto; apply P in C; lia.
Qed.

Lemma argbest_nan (l : list B64) : forall i bi bv, nnan bv = true -> argbest (fun v m => nltb v m) l i bi bv = (bi, bv).
Proof. induction l as [|x l IH]; intros i bi bv H; cbn [argbest]; auto. rewrite nan_lt_r by auto. now apply IH. Qed.
Lemma rmap_const {A B} (f : A -> res B) b l : (forall x, In x l -> f x = Ok b) -> rmap f l = Ok (repeat b (length l)).
Proof. induction l as [|x l IH]; intros H; cbn [rmap length repeat]; auto. rewrite (H x (or_introl eq_refl)). cbn [rbind]. rewrite IH; auto. intros; apply H; now right. Qed.

(** If the first of the training rows DBSCAN remembers has a NaN, or the query has one, the answer is noise. *)
Theorem nan_dbscan_predict (m : DBSCAN B64) data lab Z : db_predictive m = true -> db_cluster_data m = Some data -> db_clusters m = Some lab ->
  mwf data -> mwf Z -> mcols Z = mcols data -> 0 < nrows data ->
  (has_nan (nth 0 (mrows data) []) \/ forall z, In z (mrows Z) -> has_nan z) ->
  dbscan_predict m Z = Ok (repeat None (nrows Z)).
Proof.
  intros P Dt Cl W Wz E Hn H. unfold dbscan_predict. rewrite P, Dt, Cl. apply rmap_const. intros z Hz.
  unfold nrows in Hn. destruct (mrows data) as [|r rows] eqn:Er; [cbn in Hn; lia|]. cbn [map argmin].
  assert (Dn : nnan (edist z r) = true).
  { apply edist_nan; [|destruct H as [H|H]; [now right|left; auto]]. unfold mwf in W, Wz. rewrite Forall_forall in W, Wz. rewrite (Wz z Hz), (W r); auto. rewrite Er. now left. }
  rewrite argbest_nan by exact Dn. cbn [rbind snd]. now rewrite nan_lt_l.
Qed.

(** ** k-means *)
(** Once some centroid entry of the first centroid is NaN, every row is assigned to it. *)
Lemma closest_stuck (C Z : matrix B64) : mwf C -> mwf Z -> mcols C = mcols Z -> 0 < nrows C ->
  (has_nan (nth 0 (mrows C) [])) -> exists ds, find_closest_centroids C Z = Ok (repeat 0 (nrows Z), ds) /\ Forall (fun d => nnan d = true) ds /\ length ds = nrows Z.
Proof.
  intros W Wz E Hn H. unfold find_closest_centroids, nrows in *. destruct (mrows C) as [|c cs] eqn:Ec; [cbn in Hn; lia|].
  assert (Q : forall z, In z (mrows Z) -> closest C (mcols Z) z = Ok (0, sqdist c z) /\ nnan (sqdist c z) = true).
  { intros z Hz. assert (Dn : nnan (sqdist c z) = true).
    { apply sqdist_nan; [|now left]. unfold mwf in W, Wz. rewrite Forall_forall in W, Wz. rewrite (Wz z Hz), (W c); auto. rewrite Ec. now left. }
    split; auto. unfold closest. rewrite E, Nat.eqb_refl, Ec. cbn [rassert map argmin]. now rewrite argbest_nan. }
  exists (map (sqdist c) (mrows Z)). revert Q. generalize (closest C (mcols Z)). intros f Q.
  assert (P : rmap f (mrows Z) = Ok (map (fun z => (0, sqdist c z)) (mrows Z))).
  { revert Q. generalize (mrows Z). intros l Q. induction l as [|z l IH]; cbn [rmap map]; auto. rewrite (proj1 (Q z (or_introl eq_refl))). cbn [rbind].
    rewrite IH by (intros; apply Q; now right). reflexivity. }
  rewrite P. cbn [rbind]. rewrite !map_map. cbn [fst snd]. split; [|split; [|apply map_length]].
  - do 2 f_equal. revert Q. generalize (mrows Z). intros l _. induction l; cbn; congruence.
  - apply Forall_map, Forall_forall. intros z Hz. apply (Q z Hz).
Qed.
(** A row with NaN is assigned to the first centroid. *)
Lemma closest_nan_row (C Z : matrix B64) t : mwf C -> mwf Z -> mcols C = mcols Z -> 0 < nrows C -> t < nrows Z -> has_nan (nth t (mrows Z) []) ->
  exists idx ds, find_closest_centroids C Z = Ok (idx, ds) /\ length idx = nrows Z /\ nth t idx 1 = 0 /\ nnan (vsum ds) = true.
Proof.
  intros W Wz E Hn Ht H. unfold find_closest_centroids, nrows in *. destruct (mrows C) as [|c cs] eqn:Ec; [cbn in Hn; lia|].
  set (f := fun z : list B64 => argbest (fun v m => nltb v m) (map (fun c => sqdist c z) cs) 1 0 (sqdist c z)).
  assert (P : rmap (closest C (mcols Z)) (mrows Z) = Ok (map f (mrows Z))).
  { generalize (mrows Z). intros l. induction l as [|z l IH]; cbn [rmap map]; auto. unfold closest at 1. rewrite E, Nat.eqb_refl, Ec. cbn [rassert map argmin rbind].
    rewrite <- E in IH |- *. rewrite IH. reflexivity. }
  assert (Dn : nnan (sqdist c (nth t (mrows Z) [])) = true).
  { apply sqdist_nan; [|now right]. unfold mwf in W, Wz. rewrite Forall_forall in W, Wz. rewrite (Wz _ (nth_In _ [] Ht)), (W c); auto. rewrite Ec. now left. }
  assert (Ft : f (nth t (mrows Z) []) = (0, sqdist c (nth t (mrows Z) []))) by (unfold f; now apply argbest_nan).
  rewrite P. cbn [rbind]. rewrite !map_map. do 2 eexists. split; [reflexivity|]. split; [apply map_length|]. split.
  - rewrite (nth_indep _ 1 (fst (f []))) by (rewrite map_length; exact Ht). rewrite (map_nth (fun z => fst (f z))), Ft. reflexivity.
  - apply nan_vsum. exists (sqdist c (nth t (mrows Z) [])). split; [|exact Dn]. apply in_map_iff. exists (nth t (mrows Z) []). split; [now rewrite Ft|]. apply nth_In, Ht.
Qed.

Lemma update_nan k (M : matrix B64) idx t : 1 <= k -> mwf M -> length idx = nrows M -> t < nrows M -> nth t idx 1 = 0 -> has_nan (nth t (mrows M) []) ->
  exists C, update_centroids k M idx = Ok C /\ mwf C /\ mcols C = mcols M /\ nrows C = k /\ has_nan (nth 0 (mrows C) []).
Proof.
  intros Hk W L Ht Ht0 (j & Lj & Hj). rewrite row_len in Lj by auto. unfold update_centroids.
  set (pick := fun c => map (fun i => nth i (mrows M) []) (class_rows idx c)).
  assert (In0 : forall c, Forall (fun i => i < length (mrows M)) (class_rows idx c)).
  { intros c. apply Forall_forall. intros i Hi. apply filter_In in Hi. destruct Hi as (Hi & _). apply in_seq in Hi. unfold nrows in L. lia. }
  assert (P : rmap (fun c => let? m := select_rows M (class_rows idx c) in Ok (col_mean m)) (seq 0 k) = Ok (map (fun c => col_mean (Mat (pick c) (mcols M))) (seq 0 k))).
  { generalize (seq 0 k). intros l. induction l as [|c l IH]; cbn [rmap map]; auto. unfold select_rows at 1. rewrite (rows_opt_spec _ _ [] (In0 c)). cbn [rbind].
    rewrite IH. reflexivity. }
  rewrite P. cbn [rbind]. eexists. split; [reflexivity|]. split.
  { unfold mwf. cbn [mrows mcols]. apply Forall_map, Forall_forall. intros c _. unfold col_mean. cbn [mcols]. now rewrite map_length, seq_length. }
  split; [reflexivity|]. split; [unfold nrows; cbn [mrows]; now rewrite map_length, seq_length|].
  destruct k; [lia|]. cbn [mrows seq map nth]. exists j. unfold col_mean. cbn [mcols]. rewrite map_length, seq_length. split; [exact Lj|].
  match goal with |- nnan (nth j (map ?h _) _) = true => set (g := h) end.
  rewrite (nth_indep _ nzero (g 0)) by (rewrite map_length, seq_length; exact Lj). rewrite map_nth, seq_nth by exact Lj. cbn [Nat.add]. unfold g.
  apply nan_div. left. apply nan_vsum. exists (nth j (nth t (mrows M) []) nzero). split; [|exact Hj]. unfold col. cbn [mrows]. apply in_map_iff. exists (nth t (mrows M) []). split; auto.
  unfold pick. apply in_map_iff. exists t. split; auto. apply filter_In. split; [apply in_seq; lia|]. now rewrite Ht0.
Qed.
Lemma repeat_len {A} (x : A) n : length (repeat x n) = n. Proof. apply repeat_length. Qed.
Lemma lloyd_stuck tol k (M : matrix B64) t : 1 <= k -> mwf M -> t < nrows M -> has_nan (nth t (mrows M) []) ->
  forall iters cost C, mwf C -> mcols C = mcols M -> nrows C = k -> (has_nan (nth 0 (mrows C) []) \/ 1 <= iters) ->
  exists C', lloyd tol k M iters cost C = Ok C' /\ mwf C' /\ mcols C' = mcols M /\ nrows C' = k /\ has_nan (nth 0 (mrows C') []).
Proof.
  intros Hk W Ht H. induction iters as [|iters IH]; intros cost C Wc Ec Nc Hc; cbn [lloyd].
  - destruct Hc as [Hc|]; [|lia]. exists C. auto.
  - destruct (closest_nan_row C M t Wc W Ec ltac:(lia) Ht H) as (idx & ds & -> & Li & Hi & Hv). cbn [rbind].
    destruct (update_nan k M idx t Hk W Li Ht Hi H) as (C' & -> & A1 & A2 & A3 & A4). cbn [rbind].
    destruct (nltb (nabs (nsub cost (vsum ds))) tol); [exists C'; auto|]. apply IH; auto.
Qed.
(** Training on data with a NaN row from any starting centroids succeeds and leaves a model that puts everything into cluster 0. *)
Theorem nan_kmeans tol (m : KMeans B64) (M C0 : matrix B64) t : 1 <= km_k m <= nrows M -> 1 <= km_iters m -> mwf M -> t < nrows M -> has_nan (nth t (mrows M) []) ->
  mwf C0 -> nrows C0 = km_k m -> mcols C0 = mcols M ->
  exists m', km_train tol (Ok C0) m M = (m', Ok tt) /\ forall Z, mwf Z -> mcols Z = mcols M -> km_predict m' Z = Ok (repeat 0 (nrows Z)).
Proof.
  intros Hk Hi W Ht H Wc Nc Ec. unfold km_train, init_centroids. destruct (Nat.ltb_spec (nrows M) (km_k m)); [lia|]. cbn [rbind].
  rewrite Nc, Ec, !Nat.eqb_refl. cbn [negb].
  destruct (lloyd_stuck tol (km_k m) M t ltac:(lia) W Ht H (km_iters m) nzero C0 Wc Ec Nc (or_intror Hi)) as (C' & -> & A1 & A2 & A3 & A4).
  eexists. split; [reflexivity|]. intros Z Wz Ez. unfold km_predict. cbn [km_centroids km_set].
  destruct (closest_stuck C' Z A1 Wz ltac:(congruence) ltac:(lia) A4) as (ds & -> & _). reflexivity.
Qed.
(** k-means++ with two or more clusters notices. *)
Lemma nan_finite (x : B64) : nnan x = true -> nfinite x = false. Proof. destruct x; auto; discriminate. Qed.
Theorem nan_kpp tol (m : KMeans B64) (M : matrix B64) t first u us : mwf M -> km_k m <= nrows M -> t < nrows M -> has_nan (nth t (mrows M) []) -> first < nrows M ->
  kpp M (km_k m) first (u :: us) = Err InvalidData /\
  km_train tol (match kpp M (km_k m) first (u :: us) with Ok (_, C) => Ok C | Err e => Err e | Panic => Panic end) m M = (m, Err InvalidData).
Proof.
  intros W Hk Ht H Hf.
  assert (E : kpp M (km_k m) first (u :: us) = Err InvalidData).
  { unfold kpp. rewrite (ridx_nth _ first []) by exact Hf. cbn [rbind kpp_loop].
    set (C := Mat [nth first (mrows M) []] (mcols M)).
    assert (P : exists idx ds, find_closest_centroids C M = Ok (idx, ds) /\ forallb nfinite ds = false).
    { unfold find_closest_centroids.
      assert (Q : rmap (closest C (mcols M)) (mrows M) = Ok (map (fun z => (0, sqdist (nth first (mrows M) []) z)) (mrows M))).
      { generalize (mrows M) at 1 3. intros l. induction l as [|z l IH]; cbn [rmap map]; auto. unfold closest at 1. cbn [mcols C]. rewrite Nat.eqb_refl. cbn [rassert mrows C map argmin argbest rbind]. rewrite IH. reflexivity. }
      rewrite Q. cbn [rbind]. rewrite !map_map. do 2 eexists. split; [reflexivity|]. cbn [snd].
      apply not_true_iff_false. rewrite forallb_forall. intros A. specialize (A (sqdist (nth first (mrows M) []) (nth t (mrows M) []))).
      rewrite nan_finite in A; [specialize (A ltac:(apply in_map, nth_In, Ht)); discriminate|]. apply sqdist_nan; [|now right]. rewrite !row_len by auto. reflexivity. }
    destruct P as (idx & ds & -> & Ef). cbn [rbind]. rewrite Ef. reflexivity. }
  split; [exact E|]. rewrite E. unfold km_train, init_centroids. destruct (Nat.ltb_spec (nrows M) (km_k m)); [lia|]. reflexivity.
Qed.
