(** * The unchecked accesses of the nearest-neighbour searches *)
From Coq Require Import List Arith Lia Bool Permutation Reals.
From Verif Require Import Base BaseLemmas Num NumOrd Linalg LinalgR Spec_Calc CalcR Model_KNN Spec_KNN Proof_KNearest Proof_Tree Proof_KNNEx Model_Unsafe Spec_Unsafe.
Import ListNotations.
Local Open Scope nat_scope.

Lemma lift_bind {A B} (r : res A) (f : A -> res B) : lift (rbind r f) = mbind (lift r) (fun a => lift (f a)).
Proof. now destruct r. Qed.
Lemma lift_not_ub {A} (r : res A) : lift r <> MUB.
Proof. now destruct r. Qed.
Lemma sound_lift {A} (m : mem A) r : m = lift r -> sound_as m r.
Proof. intros ->. split; auto. apply lift_not_ub. Qed.
Lemma sound_lift_opt {A} (m : option (mem A)) r : m = option_map lift r -> sound_as_opt m r.
Proof. intros ->. split; auto. destruct r as [r|]; cbn; [|discriminate]. intros H. injection H as H. now apply lift_not_ub in H. Qed.
Lemma bind_ext {A B} (m : mem A) (r : res A) (f : A -> mem B) (g : A -> res B) : m = lift r -> (forall a, r = Ok a -> f a = lift (g a)) ->
  mbind m f = lift (rbind r g).
Proof. intros -> H. destruct r; cbn; auto. Qed.
Lemma mmap_ext {A B} (f : A -> mem B) (g : A -> res B) l : (forall a, In a l -> f a = lift (g a)) -> mmap f l = lift (rmap g l).
Proof.
  induction l as [|a l IH]; intros H; cbn [mmap rmap]; auto. apply bind_ext; [apply H; now left|]. intros b _.
  apply bind_ext; [apply IH; intros; apply H; now right|]. reflexivity.
Qed.
Lemma uget_in {A} (l : list A) i : i < length l -> uget l (Some i) = lift (ridx l i).
Proof. intros H. unfold uget, ridx. destruct (nth_error l i) eqn:E; auto. apply nth_error_None in E. lia. Qed.
Lemma uget_out {A} (l : list A) i : length l <= i -> uget l (Some i) = MUB.
Proof. intros H. unfold uget. apply nth_error_None in H. now rewrite H. Qed.
Lemma usub_pos c n : 1 <= n -> usub c n 1 = MOk (Some (n - 1)).
Proof. intros H. unfold usub. now rewrite (proj2 (Nat.leb_le _ _) H). Qed.

Section K.
  Context {F : Type} {N : Num F} (c : bool).

  Lemma m_add_scan_ok j : forall (ps : list (nat * F)) p, j <= length ps -> m_add_scan j ps p = lift (add_scan j ps p).
  Proof.
    induction j as [|j IH]; intros ps p H; cbn [m_add_scan add_scan]; auto.
    apply bind_ext; [apply uget_in; lia|]. intros q _. destruct nltb; auto. apply IH. lia.
  Qed.
  Lemma add_scan_length j : forall (ps : list (nat * F)) p ps', j <= length ps -> add_scan j ps p = Ok ps' -> length ps' = S (length ps).
  Proof.
    assert (V : forall i (ps : list (nat * F)) p, length (vec_insert i p ps) = S (length ps)).
    { intros i ps p. unfold vec_insert. rewrite app_length. cbn. rewrite firstn_length, skipn_length. lia. }
    induction j as [|j IH]; intros ps p ps' H; cbn [add_scan].
    - intros E. injection E as <-. apply V.
    - destruct (ridx ps j); cbn [rbind]; try discriminate. destruct nltb; [|intros; eapply IH; eauto; lia].
      intros E. injection E as <-. apply V.
  Qed.
  Lemma removelast_len {A} (l : list A) : length (removelast l) = length l - 1.
  Proof. destruct l as [|a l] using rev_ind; auto. rewrite removelast_last, app_length. cbn. lia. Qed.

  Lemma m_add_ok k (ps : list (nat * F)) i d : ps <> [] -> m_knearest_add c k ps i d = lift (knearest_add k ps i d).
  Proof.
    intros NE. assert (L : 1 <= length ps) by (destruct ps; [easy|cbn; lia]).
    unfold m_knearest_add, knearest_add. rewrite (usub_pos c _ L).
    assert (E : (if length ps <? k then MOk (Some (length ps)) else MOk (Some (length ps - 1))) =
                MOk (Some (if length ps <? k then length ps else length ps - 1))) by (now destruct (_ <? _)).
    rewrite E. cbn [mbind]. apply bind_ext; [apply uget_in; lia|]. intros q _.
    destruct nltb.
    - apply bind_ext; auto. apply uget_in. destruct (length ps <? k) eqn:Q; [rewrite app_length; cbn; lia|lia].
    - set (ps1 := if k <=? length ps then removelast ps else ps).
      assert (L1 : length ps - 1 <= length ps1) by (unfold ps1; destruct (_ <=? _); [rewrite removelast_len|]; lia).
      apply bind_ext; [apply m_add_scan_ok; exact L1|]. intros ps' Ps'. apply add_scan_length in Ps'; [|exact L1].
      apply bind_ext; auto. apply uget_in. rewrite Ps'. unfold ps1. destruct (Nat.ltb_spec (length ps) k); destruct (Nat.leb_spec k (length ps)); try lia.
      rewrite removelast_len. lia.
  Qed.
  Lemma add_nonempty k (ps : list (nat * F)) i d ps' x : knearest_add k ps i d = Ok (ps', x) -> ps' <> [].
  Proof.
    unfold knearest_add. destruct (ridx ps (length ps - 1)) eqn:R; cbn [rbind]; try discriminate.
    assert (L : 1 <= length ps) by (destruct ps; [discriminate|cbn; lia]).
    destruct nltb.
    - set (q := if length ps <? k then _ else _). destruct (ridx q _) eqn:Q; cbn [rbind]; try discriminate. intros E.
      injection E as <- _. unfold q. destruct (_ <? _); [now destruct ps|]. destruct ps; [cbn in L; lia|discriminate].
    - set (ps1 := if k <=? length ps then removelast ps else ps). destruct (add_scan _ ps1 _) eqn:A; cbn [rbind]; try discriminate.
      apply add_scan_length in A; [|unfold ps1; destruct (_ <=? _); [rewrite removelast_len|]; lia].
      set (q := if length ps <? k then _ else _). destruct (ridx a0 q); cbn [rbind]; try discriminate. intros E. injection E as <- _.
      destruct a0; [cbn in A; lia|discriminate].
  Qed.
  Lemma m_dist_ok k (ps : list (nat * F)) : 1 <= k -> m_knearest_dist c k ps = lift (knearest_dist k ps).
  Proof.
    intros K. unfold m_knearest_dist, knearest_dist. destruct (Nat.ltb_spec (length ps) k); auto.
    rewrite usub_pos by lia. cbn [mbind]. apply bind_ext; auto. apply uget_in. lia.
  Qed.
  Lemma m_offer_ok k cs : forall (ps : list (nat * F)) cur, ps <> [] -> m_offer c k cs ps cur = lift (offer k cs ps cur).
  Proof.
    induction cs as [|[i d] cs IH]; intros ps cur NE; cbn [m_offer offer]; auto. destruct nltb; auto.
    apply bind_ext; [now apply m_add_ok|]. intros [ps' cur'] A. apply IH. now apply add_nonempty in A.
  Qed.
  Lemma offer_nonempty k cs : forall (ps : list (nat * F)) cur ps', ps <> [] -> offer k cs ps cur = Ok ps' -> ps' <> [].
  Proof.
    induction cs as [|[i d] cs IH]; intros ps cur ps' NE; cbn [offer]; [intros E; now injection E as <-|]. destruct nltb; [|now apply IH].
    destruct (knearest_add k ps i d) as [[ps1 cur1]| |] eqn:A; cbn [rbind]; try discriminate. apply IH. now apply add_nonempty in A.
  Qed.
  Lemma sort_insert_len p (l : list (nat * F)) : length (sort_insert p l) = S (length l).
  Proof. induction l as [|q l IH]; cbn; auto. destruct nltb; cbn; auto. Qed.
  Lemma sort_pairs_len (l : list (nat * F)) : length (sort_pairs l) = length l.
  Proof. induction l as [|q l IH]; cbn; auto. now rewrite sort_insert_len, IH. Qed.
  Lemma new_nonempty k ids (data : matrix F) point ds ps : 1 <= k -> get_distances data point ids = Ok ds -> knearest_new k ids ds = Ok ps -> ps <> [].
  Proof.
    intros K G. unfold get_distances in G. destruct ids as [|i ids]; [discriminate|]. cbn [rassert] in G. 
    assert (L : length ds = length (i :: ids)).
    { revert ds G. generalize (i :: ids). induction l as [|a l IH]; cbn [rmap]; intros ds; [intros E; now injection E as <-|].
      destruct (ridx _ a); cbn [rbind]; try discriminate. destruct (rmap _ l); cbn [rbind]; try discriminate. intros E. injection E as <-. cbn. now rewrite (IH _ eq_refl). }
    unfold knearest_new. destruct (_ && _); [discriminate|]. intros E. injection E as <-.
    assert (Q : length (sort_pairs (combine (i :: ids) ds)) = S (length ids)).
    { rewrite sort_pairs_len, combine_length, L. cbn. lia. }
    destruct (sort_pairs _); [discriminate|]. destruct k; [lia|]. discriminate.
  Qed.

  Theorem brute_sound data (point : list F) k : sound_as (m_brute_search c data point k) (brute_search data point k).
  Proof.
    apply sound_lift. unfold m_brute_search, brute_search. destruct data as [data|]; auto.
    apply bind_ext; auto. intros ds D. destruct k as [|k]; [discriminate|].
    apply bind_ext; auto. intros q Q. apply bind_ext; [apply m_dist_ok; lia|]. intros cur _.
    apply bind_ext; auto. apply m_offer_ok. apply (new_nonempty (S k) (seq 0 (S k)) data point ds); auto; lia.
  Qed.

  (** ** Trees *)
  Section Tree.
    Context {G : Type} (B : BinarySplit (F := F) G).

    Lemma m_partition_ok (data : matrix F) dim sp rem : mwf data -> dim < mcols data -> (forall i, In i rem -> i < nrows data) ->
      m_partition data dim sp rem = MOk (filter (fun r => nltb (nth dim (nth r (mrows data) []) nzero) sp) rem,
                                         filter (fun r => negb (nltb (nth dim (nth r (mrows data) []) nzero) sp)) rem).
    Proof.
      intros W D. induction rem as [|r rem IH]; intros R; cbn [m_partition filter]; auto.
      assert (Hr : r < nrows data) by (apply R; now left). unfold uget2.
      rewrite uget_in by exact Hr. rewrite (ridx_nth _ _ []) by exact Hr. cbn [lift mbind].
      assert (Lr : length (nth r (mrows data) []) = mcols data) by (apply row_length; auto).
      rewrite uget_in by lia. rewrite (ridx_nth _ _ nzero) by lia. cbn [lift mbind].
      rewrite IH by (intros; apply R; now right). cbn [mbind fst snd]. destruct nltb; reflexivity.
    Qed.

    Lemma m_select_ok fuel (data : matrix F) : mwf data -> forall rem dmin dmax, length dmin = mcols data -> length dmax = mcols data ->
      (forall i, In i rem -> i < nrows data) ->
      m_select_split fuel data rem dmin dmax = option_map lift (select_split fuel data rem dmin dmax).
    Proof.
      intros W. induction fuel as [|fuel IH]; intros rem dmin dmax L1 L2 R; cbn [m_select_split select_split]; auto.
      destruct (argmax (vsub dmax dmin)) as [[dim d]| |] eqn:A; auto.
      apply argmax_range in A. unfold vsub in A. rewrite map2_length, L1, L2, Nat.min_id in A.
      rewrite uget_in by lia. rewrite (ridx_nth _ _ nzero) by lia. cbn [lift mbind].
      rewrite m_partition_ok by auto. cbn [mbind].
      set (s := nadd _ _).
      set (l := filter (fun r => nltb _ s) rem). set (r := filter (fun r0 => negb _) rem).
      assert (Rl : forall i, In i l -> i < nrows data) by (intros i Hi; apply filter_In in Hi; now apply R).
      assert (Rr : forall i, In i r -> i < nrows data) by (intros i Hi; apply filter_In in Hi; now apply R).
      clearbody l r. destruct l as [|l0 l]; [apply IH; auto; now rewrite vset_length|].
      destruct r as [|r0 r]; [apply IH; auto; now rewrite vset_length|]. reflexivity.
    Qed.
    Lemma select_out fuel (data : matrix F) : forall rem dmin dmax dim sp l r lmax rmin, length dmin = mcols data -> length dmax = mcols data ->
      select_split fuel data rem dmin dmax = Some (Ok (dim, sp, l, r, lmax, rmin)) ->
      dim < mcols data /\ incl l rem /\ incl r rem /\ length lmax = mcols data /\ length rmin = mcols data.
    Proof.
      induction fuel as [|fuel IH]; intros rem dmin dmax dim sp l r lmax rmin L1 L2; cbn [select_split]; [discriminate|].
      destruct (argmax (vsub dmax dmin)) as [[dm d]| |] eqn:A; try discriminate.
      apply argmax_range in A. unfold vsub in A. rewrite map2_length, L1, L2, Nat.min_id in A.
      set (s := nadd _ _).
      set (fl := filter (fun r0 => nltb _ s) rem). set (fr := filter (fun r0 => negb _) rem).
      assert (Rl : incl fl rem) by (intros i Hi; now apply filter_In in Hi).
      assert (Rr : incl fr rem) by (intros i Hi; now apply filter_In in Hi).
      clearbody fl fr. destruct fl as [|l0 fl].
      - intros H. apply IH in H; auto; [|now rewrite vset_length]. destruct H as (H1 & H2 & H3 & H4). repeat split; auto; try apply H4; eapply incl_tran; eauto.
      - destruct fr as [|r0 fr].
        + intros H. apply IH in H; auto; [|now rewrite vset_length]. destruct H as (H1 & H2 & H3 & H4). repeat split; auto; try apply H4; eapply incl_tran; eauto.
        + intros H. injection H as <- <- <- <- <- <-. rewrite !vset_length. auto.
    Qed.

    Lemma m_split_ok leafsize (data : matrix F) : mwf data -> forall fuel rem dmin dmax, length dmin = mcols data -> length dmax = mcols data ->
      (forall i, In i rem -> i < nrows data) ->
      m_split B fuel leafsize data rem dmin dmax = option_map lift (split B fuel leafsize data rem dmin dmax).
    Proof.
      intros W. induction fuel as [|fuel IH]; intros rem dmin dmax L1 L2 R; cbn [m_split split]; auto.
      destruct (length rem <? leafsize); auto. rewrite m_select_ok by auto.
      destruct (select_split fuel data rem dmin dmax) as [[[[[[[dim sp] l] r] lmax] rmin]|e|]|] eqn:ES; auto.
      apply select_out in ES; auto. destruct ES as (D & Il & Ir & L3 & L4). cbn [option_map lift].
      rewrite IH by auto. destruct (split B fuel leafsize data l dmin lmax) as [[ln|e|]|]; auto. cbn [option_map lift].
      rewrite IH by auto. destruct (split B fuel leafsize data r rmin dmax) as [[rn|e|]|]; auto. cbn [option_map lift].
      rewrite lift_bind. reflexivity.
    Qed.

    Lemma fold_len {A} (f : A -> A -> A) n (rows : list (list A)) : forall acc, length acc = n -> (forall r, In r rows -> length r = n) ->
      length (fold_left (fun acc row => map2 f acc row) rows acc) = n.
    Proof.
      induction rows as [|r rows IH]; intros acc L R; cbn [fold_left]; auto. apply IH; [|intros; apply R; now right].
      rewrite map2_length, L, R by (now left). apply Nat.min_id.
    Qed.
    Lemma data_min_len (data : matrix F) m : mwf data -> data_min data = Ok m -> length m = mcols data.
    Proof.
      intros W. unfold mwf in W. rewrite Forall_forall in W. unfold data_min. destruct (mrows data) as [|r0 rows] eqn:E.
      - destruct (Nat.eqb_spec (mcols data) 0) as [Z|]; [|discriminate]. intros H. injection H as <-. now rewrite Z.
      - intros H. injection H as <-. apply (fold_len (fun r v => if nltb v r then v else r) (mcols data) (r0 :: rows)); [|exact W]. apply W. now left.
    Qed.
    Lemma data_max_len (data : matrix F) m : mwf data -> data_max data = Ok m -> length m = mcols data.
    Proof.
      intros W. unfold mwf in W. rewrite Forall_forall in W. unfold data_max. destruct (mrows data) as [|r0 rows] eqn:E.
      - destruct (Nat.eqb_spec (mcols data) 0) as [Z|]; [|discriminate]. intros H. injection H as <-. now rewrite Z.
      - intros H. injection H as <-. apply (fold_len (fun r v => if nltb r v then v else r) (mcols data) (r0 :: rows)); [|exact W]. apply W. now left.
    Qed.

    Theorem build_sound fuel leafsize (data : matrix F) : mwf data -> sound_as_opt (m_tree_build B fuel leafsize data) (tree_build B fuel leafsize data).
    Proof.
      intros W. apply sound_lift_opt. unfold m_tree_build, tree_build.
      destruct (data_min data) as [mn| |] eqn:E1; auto. destruct (data_max data) as [mx| |] eqn:E2; auto.
      apply m_split_ok; auto. - now apply data_min_len. - now apply data_max_len. - intros i Hi. apply in_seq in Hi. lia.
    Qed.

    (** Every column a built tree splits on is a column of the data. *)
    Fixpoint dims_below (w : nat) (t : node (F := F) G) : Prop :=
      match t with Leaf _ => True | Branch dim _ _ l r => dim < w /\ dims_below w l /\ dims_below w r end.
    Lemma split_dims leafsize (data : matrix F) fuel : forall rem dmin dmax t, length dmin = mcols data -> length dmax = mcols data ->
      split B fuel leafsize data rem dmin dmax = Some (Ok t) -> dims_below (mcols data) t.
    Proof.
      induction fuel as [|fuel IH]; intros rem dmin dmax t L1 L2; cbn [split]; [discriminate|].
      destruct (length rem <? leafsize); [intros H; injection H as <-; exact I|].
      destruct (select_split fuel data rem dmin dmax) as [[[[[[[dim sp] l] r] lmax] rmin]|e|]|] eqn:ES; try discriminate.
      apply select_out in ES; auto. destruct ES as (D & Il & Ir & L3 & L4).
      destruct (split B fuel leafsize data l dmin lmax) as [[ln|e|]|] eqn:EL; try discriminate.
      destruct (split B fuel leafsize data r rmin dmax) as [[rn|e|]|] eqn:ER; try discriminate.
      destruct (bs_build B data rem dmin dmax) as [g|e|]; try discriminate. intros H. injection H as <-. cbn. eauto.
    Qed.
    Lemma build_dims fuel leafsize (data : matrix F) t : mwf data -> tree_build B fuel leafsize data = Some (Ok t) -> dims_below (mcols data) t.
    Proof.
      intros W. unfold tree_build. destruct (data_min data) as [mn| |] eqn:E1; try discriminate. destruct (data_max data) as [mx| |] eqn:E2; try discriminate.
      apply split_dims; [now apply data_min_len|now apply data_max_len].
    Qed.

    Lemma m_leaf_ok w (point : list F) : w <= length point -> forall t q, dims_below w t -> m_search_leaf t point q = lift (search_leaf t point q).
    Proof.
      intros L. induction t as [ch|dim sp g l IHl r IHr]; intros q D; cbn [m_search_leaf search_leaf]; auto. destruct D as (D1 & D2 & D3).
      apply bind_ext; [apply uget_in; lia|]. intros p _. destruct nltb; auto.
    Qed.
    Lemma m_loop_ok k (data : matrix F) (point : list F) : 1 <= k -> forall fuel queue query, query <> [] ->
      m_search_loop c B fuel k data point queue query = lift (search_loop B fuel k data point queue query).
    Proof.
      intros K. induction fuel as [|fuel IH]; intros [|t queue] query NE; cbn [m_search_loop search_loop]; auto.
      destruct t as [ch|dim sp g l r].
      - apply bind_ext; auto. intros ds _. apply bind_ext; [now apply m_dist_ok|]. intros cur _.
        apply bind_ext; [now apply m_offer_ok|]. intros q Q. apply IH. eapply offer_nonempty; eauto.
      - apply bind_ext; [now apply m_dist_ok|]. intros cur _. destruct nltb; auto.
    Qed.
    Theorem tree_sound_dims w t (data : matrix F) (point : list F) k : 1 <= k -> w <= length point -> dims_below w t ->
      m_tree_search c B (Some (t, data)) point k = lift (tree_search B (Some (t, data)) point k).
    Proof.
      intros K L D. cbn [m_tree_search tree_search].
      apply bind_ext; [eapply m_leaf_ok; eauto|]. intros [ch q] _. apply bind_ext; auto. intros ds Ds.
      apply bind_ext; auto. intros query Q. apply bind_ext; auto. apply m_loop_ok; auto. eapply new_nonempty; eauto.
    Qed.
    Theorem tree_sound fuel leafsize t (data : matrix F) (point : list F) k : mwf data -> 1 <= k -> mcols data <= length point ->
      tree_build B fuel leafsize data = Some (Ok t) ->
      sound_as (m_tree_search c B (Some (t, data)) point k) (tree_search B (Some (t, data)) point k).
    Proof. intros W K L T. apply sound_lift. eapply tree_sound_dims; eauto. eapply build_dims; eauto. Qed.

    Theorem tree_narrow t dim (data : matrix F) (point : list F) k : splits_on t dim -> length point <= dim ->
      m_tree_search c B (Some (t, data)) point k = MUB.
    Proof. intros (sp & g & l & r & ->) L. cbn [m_tree_search m_search_leaf]. now rewrite uget_out. Qed.

    Theorem classifier_tree_sound fuel leafsize t (data test : matrix F) (cl : KNNClassifier (option (node (F := F) G * matrix F))) :
      mwf data -> mwf test -> mcols test = mcols data -> 1 <= knn_k _ cl -> tree_build B fuel leafsize data = Some (Ok t) ->
      knn_searcher _ cl = Some (t, data) ->
      sound_as (m_knn_predict (m_tree_search c B) cl test) (knn_predict (tree_search B) cl test).
    Proof.
      intros W Wt Ec K T S. apply sound_lift. unfold m_knn_predict, knn_predict. destruct (knn_target _ cl) as [tg|]; auto.
      apply mmap_ext. intros row Hr. apply bind_ext; auto. rewrite S. apply tree_sound with (fuel := fuel) (leafsize := leafsize); auto.
      unfold mwf in Wt. rewrite Forall_forall in Wt. rewrite (Wt _ Hr). lia.
    Qed.
  End Tree.

  Theorem classifier_brute_sound (test : matrix F) (cl : KNNClassifier (option (matrix F))) :
    sound_as (m_knn_predict (m_brute_search c) cl test) (knn_predict brute_search cl test).
  Proof.
    apply sound_lift. unfold m_knn_predict, knn_predict. destruct (knn_target _ cl) as [tg|]; auto.
    apply mmap_ext. intros row Hr. apply bind_ext; auto. apply brute_sound.
  Qed.
End K.
