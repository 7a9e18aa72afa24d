(** * Brute-force search and tree search, for any arithmetic whose comparisons are an order *)
From Coq Require Import List Arith Lia Bool Permutation.
From Verif Require Import Base BaseLemmas Num NumOrd Linalg LinalgR Spec_Calc CalcR Model_KNN Spec_KNN Proof_KNearest.
Import ListNotations.

Section T.
  Context {F : Type} {N : Num F} {O : NumOrd F}.

  Definition rowdist (data : matrix F) (point : list F) (i : nat) : F := dist point (nth i (mrows data) []).

  Lemma get_distances_spec data point ids : ids <> [] -> (forall i, In i ids -> i < nrows data) ->
    get_distances data point ids = Ok (map (rowdist data point) ids).
  Proof.
    intros NE R. unfold get_distances. destruct ids as [|i0 ids]; [easy|]. cbn [rassert]. clear NE.
    induction (i0 :: ids) as [|i l IH]; cbn [rmap map]; auto.
    rewrite (ridx_nth _ _ []) by (apply R; now left). cbn [rbind]. rewrite IH by (intros; apply R; now right). reflexivity.
  Qed.

  Lemma combine_map_self {A} (f : nat -> A) l : combine l (map f l) = map (fun j => (j, f j)) l.
  Proof. induction l; cbn; congruence. Qed.

  Lemma map_skipn_rows data point k : map (dist point) (skipn k (mrows data)) =
    map (rowdist data point) (seq k (nrows data - k)).
  Proof.
    unfold rowdist, nrows. generalize (mrows data) as rows. intros rows. revert k.
    induction rows as [|r rows IH]; intros k; cbn.
    - now rewrite skipn_nil.
    - destruct k; cbn.
      + f_equal. specialize (IH 0). cbn in IH. rewrite Nat.sub_0_r in IH. rewrite IH, <- seq_shift, map_map. reflexivity.
      + rewrite IH, <- seq_shift, map_map. reflexivity.
  Qed.

  Theorem brute_spec (data : matrix F) (point : list F) k : 1 <= k <= nrows data ->
    (forall i, i < nrows data -> nnan (rowdist data point i) = false) ->
    exists idx ds, brute_search (Some data) point k = Ok (idx, ds) /\
      k_nearest (nrows data) k (rowdist data point) idx ds.
  Proof.
    intros K NN. set (D := rowdist data point) in *. cbn [brute_search].
    rewrite get_distances_spec; [|destruct k; [lia|discriminate]|intros i Hi; apply in_seq in Hi; lia].
    fold D. cbn [rbind].
    destruct (new_spec D k (seq 0 k)) as (ps & E & G & L & T); try lia.
    { destruct k; [lia|discriminate]. } { intros i Hi. apply in_seq in Hi. apply NN. lia. } { apply seq_NoDup. }
    rewrite E. cbn [rbind]. rewrite seq_length, Nat.min_id in L.
    assert (Hd : knearest_dist k ps = Ok (snd (last ps (0, D 0)))).
    { unfold knearest_dist. rewrite L, Nat.ltb_irrefl. rewrite <- L. rewrite (ridx_last _ (0, D 0)); [reflexivity|]. apply G. }
    rewrite Hd. cbn [rbind]. rewrite map_skipn_rows, combine_map_self.
    destruct (offer_topk D k (seq k (nrows data - k)) ltac:(lia) (seq 0 k) ps (0, D 0)) as (ps' & E' & G' & L' & T'); auto.
    { intros i Hi. apply NN. apply in_app_or in Hi. destruct Hi as [Hi|Hi]; apply in_seq in Hi; lia. }
    { eapply Permutation_NoDup; [apply Permutation_app_comm|]. rewrite <- seq_app. apply seq_NoDup. }
    fold D. rewrite E'. cbn [rbind]. exists (map fst ps'), (map snd ps'). split; auto.
    apply (topk_nearest D _ _ (seq k (nrows data - k) ++ seq 0 k)); auto.
    intros i. rewrite in_app_iff, !in_seq. lia.
  Qed.

  Lemma brute_bad_k (data : matrix F) (point : list F) k : k = 0 \/ nrows data < k ->
    brute_search (Some data) point k = Panic.
  Proof.
    intros [->|H]; [reflexivity|]. cbn [brute_search]. unfold get_distances.
    destruct k; [lia|]. cbn [seq rassert].
    assert (Q : forall ids, In (nrows data) ids -> rmap (fun id => let? row := ridx (mrows data) id in Ok (dist point row)) ids = Panic
                  \/ exists e, rmap (fun id => let? row := ridx (mrows data) id in Ok (dist point row)) ids = Err e).
    { induction ids as [|i ids IH]; intros [].
      - subst. left. cbn. unfold ridx. replace (nth_error (mrows data) (nrows data)) with (@None (list F)); auto. symmetry. now apply nth_error_None.
      - cbn. destruct (ridx (mrows data) i) eqn:E; cbn; auto. destruct (IH H0) as [Q|(e & Q)]; rewrite Q; cbn; eauto.
        unfold ridx in E. destruct nth_error; discriminate. }
    assert (NE : forall ids, (forall e, rmap (fun id => let? row := ridx (mrows data) id in Ok (dist point row)) ids <> Err e)).
    { induction ids as [|i ids IH]; intros e; cbn; [discriminate|]. unfold ridx. destruct nth_error; cbn; try discriminate.
      destruct rmap; cbn; try discriminate. intros Q9. inversion Q9; subst. now apply (IH e). }
    destruct (Q (0 :: seq 1 k)) as [Q'|(e & Q')].
    - change (0 :: seq 1 k) with (seq 0 (S k)). apply in_seq. lia.
    - now rewrite Q'.
    - exfalso. now apply (NE _ _ Q').
  Qed.

  (** ** Tree search *)
  Section Tree.
    Context {G : Type} (B : BinarySplit (F := F) G) (data : matrix F) (point : list F).
    Notation D := (rowdist data point).
    Variable U : list nat.
    Hypothesis Urange : forall i, In i U -> i < nrows data.
    Hypothesis NN : forall i, i < nrows data -> nnan (D i) = false.

    Fixpoint shape_ok (t : node (F := F) G) : Prop :=
      match t with
      | Leaf c => c <> []
      | Branch dim _ _ l r => dim < length point /\ shape_ok l /\ shape_ok r
      end.
    (** The geometry of every branch underestimates the distances to its rows. *)
    Fixpoint lower_ok (t : node (F := F) G) : Prop :=
      match t with
      | Leaf c => True
      | Branch _ _ g l r =>
          nnan (bs_dist B g point) = false /\
          (forall j, In j (stored t) -> nltb (D j) (bs_dist B g point) = false) /\ lower_ok l /\ lower_ok r
      end.

    Definition qrows (q : list (node (F := F) G)) : list nat := flat_map stored q.
    Definition qsize (q : list (node (F := F) G)) : nat := list_sum (map tsize q).

    Lemma qrows_app a b : qrows (a ++ b) = qrows a ++ qrows b.
    Proof. apply flat_map_app. Qed.
    Lemma qsize_app a b : qsize (a ++ b) = qsize a + qsize b.
    Proof. unfold qsize. now rewrite map_app, list_sum_app. Qed.
    Lemma qsize_cons t q : qsize (t :: q) = tsize t + qsize q. Proof. reflexivity. Qed.
    Lemma tsize_pos (t : node (F := F) G) : 1 <= tsize t. Proof. destruct t; cbn; lia. Qed.

    Lemma search_leaf_spec t : shape_ok t -> forall q,
      exists q', search_leaf t point q = Ok (home point t, q ++ q') /\ Permutation (home point t ++ qrows q') (stored t) /\
        home point t <> [] /\ Forall shape_ok q' /\ (lower_ok t -> Forall lower_ok q') /\ qsize q' <= tsize t.
    Proof.
      induction t as [c|dim sp g l IHl r IHr]; intros S q; cbn [search_leaf home].
      - exists []. rewrite app_nil_r. cbn. rewrite app_nil_r. repeat split; auto.
      - destruct S as (S1 & S2 & S3). rewrite (ridx_nth _ _ nzero) by auto. cbn [rbind].
        destruct nltb.
        + destruct (IHl S2 (q ++ [r])) as (q' & E & P & NE & S' & L' & Z'). exists (r :: q').
          rewrite <- app_assoc in E. rewrite E. repeat split; auto.
          * cbn [qrows flat_map stored]. fold (qrows q').
            rewrite app_assoc. rewrite (Permutation_app_comm (home point l)). rewrite <- app_assoc, P. apply Permutation_app_comm.
          * intros (A1 & A2 & A3 & A4). constructor; auto.
          * rewrite ?qsize_cons in *; cbn [tsize] in *; change (qsize []) with 0 in *; lia.
        + destruct (IHr S3 (q ++ [l])) as (q' & E & P & NE & S' & L' & Z'). exists (l :: q').
          rewrite <- app_assoc in E. rewrite E. repeat split; auto.
          * cbn [qrows flat_map stored]. fold (qrows q').
            rewrite app_assoc. rewrite (Permutation_app_comm (home point r)). rewrite <- app_assoc, P. reflexivity.
          * intros (A1 & A2 & A3 & A4). constructor; auto.
          * rewrite ?qsize_cons in *; cbn [tsize] in *; change (qsize []) with 0 in *; lia.
    Qed.

    Lemma knearest_dist_ok k ps : ps <> [] -> length ps <= k -> exists d, knearest_dist k ps = Ok d /\
      (length ps = k -> forall z, d = snd (last ps z)).
    Proof.
      intros NE L. unfold knearest_dist. destruct (length ps <? k) eqn:E.
      - exists nmaxv. split; auto. apply Nat.ltb_lt in E. lia.
      - destruct ps as [|p ps']; [easy|]. rewrite (ridx_last _ p) by auto. cbn [rbind]. eexists. split; auto.
        intros _ z. f_equal. destruct (@exists_last _ (p :: ps') NE) as (a & w & ->). now rewrite !last_last.
    Qed.

    Lemma search_loop_gen k : 1 <= k -> forall fuel q seen ps, qsize q <= fuel -> Forall shape_ok q ->
      NoDup (seen ++ qrows q) -> (forall i, In i (seen ++ qrows q) -> i < nrows data) -> gen D k seen ps ->
      exists ps' seen', search_loop B fuel k data point q ps = Ok ps' /\ gen D k seen' ps' /\ (forall i, In i seen' -> i < nrows data).
    Proof.
      intros K. induction fuel as [|fuel IH]; intros q seen ps Z S ND R Gn.
      - destruct q as [|t q]; [|rewrite qsize_cons in Z; pose proof (tsize_pos t); lia].
        exists ps, seen. split; [reflexivity|]. split; [exact Gn|]. intros i Hi. apply R. apply in_or_app. now left.
      - destruct q as [|t q]; cbn [search_loop].
        + exists ps, seen. split; [reflexivity|]. split; [exact Gn|]. intros i Hi. apply R. apply in_or_app. now left.
        + inversion S as [|? ? St Sq]; subst. destruct (knearest_dist_ok k ps) as (cur & Ec & _); try apply Gn.
          destruct t as [c|dim sp g l r].
          * cbn [qrows flat_map stored] in ND, R. fold (qrows q) in *.
            rewrite get_distances_spec; [|exact St|intros; apply R; rewrite !in_app_iff; auto].
            cbn [rbind]. rewrite Ec. cbn [rbind]. rewrite combine_map_self.
            assert (P : Permutation ((c ++ seen) ++ qrows q) (seen ++ c ++ qrows q)).
            { rewrite (Permutation_app_comm c seen), app_assoc. reflexivity. }
            destruct (offer_gen D k c K seen ps cur) as (ps' & E' & G'); auto.
            { intros i Hi. apply NN. apply R. rewrite !in_app_iff in *. tauto. }
            { apply (Permutation_NoDup (Permutation_sym P)) in ND. revert ND. generalize (c ++ seen). intros l0. induction l0; cbn; intros Q; [constructor|]. inversion Q; subst. constructor; auto. intros Q'. apply H1. apply in_or_app. now left. }
            rewrite E'. cbn [rbind]. apply (IH q (c ++ seen) ps'); auto.
            -- rewrite ?qsize_cons in *; cbn [tsize] in *; lia.
            -- eapply Permutation_NoDup; [symmetry; exact P|exact ND].
            -- intros i Hi. apply R. now apply (Permutation_in _ P).
          * rewrite Ec. cbn [rbind]. destruct (nltb (bs_dist B g point) cur).
            -- apply (IH (q ++ [l; r]) seen ps); auto.
               ++ rewrite qsize_app. rewrite ?qsize_cons in *; cbn [tsize] in *; change (qsize []) with 0 in *; lia.
               ++ apply Forall_app. split; auto. destruct St as (? & ? & ?). auto.
               ++ eapply Permutation_NoDup; [|exact ND]. apply Permutation_app_head. rewrite qrows_app. cbn.
                  rewrite app_nil_r. apply Permutation_app_comm.
               ++ intros i Hi. apply R. rewrite qrows_app in Hi. cbn in *. rewrite app_nil_r in Hi. rewrite !in_app_iff in *. tauto.
            -- apply (IH q seen ps); auto.
               ++ rewrite ?qsize_cons in *; cbn [tsize] in *; lia.
               ++ cbn in ND. fold (qrows q) in ND. revert ND. generalize (stored l ++ stored r). clear. intros l0 ND.
                  apply (Permutation_NoDup (Permutation_app_comm _ _)) in ND. rewrite <- app_assoc in ND.
                  apply (Permutation_NoDup (Permutation_app_comm _ _)) in ND. 
                  apply (Permutation_NoDup (Permutation_app_comm _ _)). revert ND. generalize (qrows q ++ seen). intros l1.
                  induction l1; cbn; intros Q; [constructor|]. inversion Q; subst. constructor; auto. intros Q'. apply H1. apply in_or_app. now left.
               ++ intros i Hi. apply R. cbn. rewrite !in_app_iff in *. tauto.
    Qed.

    Lemma search_loop_topk k : 1 <= k -> forall fuel q seen ps, qsize q <= fuel -> Forall shape_ok q -> Forall lower_ok q ->
      NoDup (seen ++ qrows q) -> (forall i, In i (seen ++ qrows q) <-> i < nrows data) -> gen D k seen ps ->
      length ps = k -> topk D seen ps ->
      exists ps' seen', search_loop B fuel k data point q ps = Ok ps' /\ gen D k seen' ps' /\ length ps' = k /\
        topk D seen' ps' /\ (forall i, In i seen' <-> i < nrows data).
    Proof.
      intros K. induction fuel as [|fuel IH]; intros q seen ps Z S LO ND R Gn L T.
      - destruct q as [|t q]; [|rewrite qsize_cons in Z; pose proof (tsize_pos t); lia].
        exists ps, seen. cbn in R. rewrite app_nil_r in R. split; [reflexivity|]. auto.
      - destruct q as [|t q]; cbn [search_loop].
        + exists ps, seen. cbn in R. rewrite app_nil_r in R. split; [reflexivity|]. auto.
        + inversion S as [|? ? St Sq]; subst. inversion LO as [|? ? Lt Lq]; subst.
          assert (NNs : nonan D seen) by (intros i Hi; apply NN; apply R; apply in_or_app; now left).
          destruct (knearest_dist_ok (length ps) ps) as (cur & Ec & Ecl); try apply Gn; auto. specialize (Ecl eq_refl).
          destruct t as [c|dim sp g l r].
          * cbn [qrows flat_map stored] in ND, R. fold (qrows q) in *.
            rewrite get_distances_spec; [|exact St|intros; apply R; rewrite !in_app_iff; auto].
            cbn [rbind]. rewrite Ec. cbn [rbind]. rewrite combine_map_self.
            assert (P : Permutation ((c ++ seen) ++ qrows q) (seen ++ c ++ qrows q)).
            { rewrite (Permutation_app_comm c seen), app_assoc. reflexivity. }
            destruct (offer_topk D (length ps) c K seen ps (0, D 0)) as (ps' & E' & G' & L' & T'); auto.
            { intros i Hi. apply NN. apply R. rewrite !in_app_iff in *. tauto. }
            { apply (Permutation_NoDup (Permutation_sym P)) in ND. revert ND. generalize (c ++ seen). intros l0. induction l0; cbn; intros Q; [constructor|]. inversion Q; subst. constructor; auto. intros Q'. apply H1. apply in_or_app. now left. }
            rewrite (Ecl (0, D 0)), E'. cbn [rbind]. apply (IH q (c ++ seen) ps'); auto.
            -- rewrite ?qsize_cons in *; cbn [tsize] in *; lia.
            -- eapply Permutation_NoDup; [symmetry; exact P|exact ND].
            -- intros i. rewrite <- R. split; apply Permutation_in; [exact P|now symmetry].
          * rewrite Ec. cbn [rbind]. destruct (nltb (bs_dist B g point) cur) eqn:Cm.
            -- apply (IH (q ++ [l; r]) seen ps); auto.
               ++ rewrite qsize_app. rewrite ?qsize_cons in *; cbn [tsize] in *; change (qsize []) with 0 in *; lia.
               ++ apply Forall_app. split; auto. destruct St as (? & ? & ?). auto.
               ++ apply Forall_app. split; auto. destruct Lt as (? & ? & ? & ?). auto.
               ++ eapply Permutation_NoDup; [|exact ND]. apply Permutation_app_head. rewrite qrows_app. cbn.
                  rewrite app_nil_r. apply Permutation_app_comm.
               ++ intros i. rewrite <- R, qrows_app. cbn. rewrite app_nil_r, !in_app_iff. tauto.
            -- destruct Lt as (Lt1 & Lt2 & Lt3 & Lt4).
               assert (P : Permutation ((stored l ++ stored r) ++ seen) (seen ++ (stored l ++ stored r))) by apply Permutation_app_comm.
               apply (IH q ((stored l ++ stored r) ++ seen) ps); auto.
               ++ rewrite ?qsize_cons in *; cbn [tsize] in *; lia.
               ++ eapply Permutation_NoDup; [|exact ND]. cbn. fold (qrows q). rewrite app_assoc. apply Permutation_app_tail. now symmetry.
               ++ intros i. rewrite <- R. cbn. fold (qrows q). rewrite !in_app_iff. tauto.
               ++ eapply gen_incl; [|exact Gn]. intros i Hi. apply in_or_app. now right.
               ++ apply (topk_skip D (length ps) seen ps _ (0, D 0)); auto. intros j Hj. rewrite <- (Ecl (0, D 0)).
                  apply (no_ntrans _ (bs_dist B g point)); auto.
    Qed.

    Theorem tree_search_genuine t k : 1 <= k -> shape_ok t -> Permutation (stored t) (seq 0 (nrows data)) ->
      exists idx ds, tree_search B (Some (t, data)) point k = Ok (idx, ds) /\
        genuine (nrows data) D idx ds /\ 1 <= length idx <= k.
    Proof.
      intros K S P. unfold tree_search. destruct (search_leaf_spec t S []) as (q' & E & P' & NE & Sq & _ & Zq).
      cbn in E. rewrite E. cbn [rbind].
      assert (P2 : Permutation (home point t ++ qrows q') (seq 0 (nrows data))) by (etransitivity; eauto).
      assert (R : forall i, In i (home point t ++ qrows q') -> i < nrows data).
      { intros i Hi. apply (Permutation_in _ P2) in Hi. apply in_seq in Hi. lia. }
      assert (ND : NoDup (home point t ++ qrows q')) by (eapply Permutation_NoDup; [symmetry; exact P2|apply seq_NoDup]).
      rewrite get_distances_spec; auto. 2:{ intros i Hi. apply R. apply in_or_app. now left. }
      cbn [rbind].
      destruct (new_spec D k (home point t)) as (ps & E1 & G1 & _ & _); auto.
      { intros i Hi. apply NN, R. apply in_or_app. now left. }
      { revert ND. generalize (home point t). intros l. induction l; cbn; intros Q; [constructor|]. inversion Q; subst. constructor; auto. intros Q'. apply H1. apply in_or_app. now left. }
      rewrite E1. cbn [rbind].
      destruct (search_loop_gen k K (tsize t) q' (home point t) ps) as (ps' & seen' & E2 & G2 & R2); auto.
      rewrite E2. cbn [rbind]. exists (map fst ps'), (map snd ps'). split; auto. split; [now apply (gen_genuine D _ k seen')|].
      rewrite map_length. split; [|apply G2]. destruct ps'; cbn; [|lia]. exfalso. now apply G2.
    Qed.

    Theorem tree_search_exact t k : 1 <= k -> shape_ok t -> lower_ok t -> Permutation (stored t) (seq 0 (nrows data)) ->
      k <= length (home point t) ->
      exists idx ds, tree_search B (Some (t, data)) point k = Ok (idx, ds) /\ k_nearest (nrows data) k D idx ds.
    Proof.
      intros K S LO P KL. unfold tree_search. destruct (search_leaf_spec t S []) as (q' & E & P' & NE & Sq & Lq & Zq).
      cbn in E. rewrite E. cbn [rbind].
      assert (P2 : Permutation (home point t ++ qrows q') (seq 0 (nrows data))) by (etransitivity; eauto).
      assert (R : forall i, In i (home point t ++ qrows q') <-> i < nrows data).
      { intros i. split; intros Hi. apply (Permutation_in _ P2) in Hi. apply in_seq in Hi. lia.
        apply (Permutation_in _ (Permutation_sym P2)). apply in_seq. lia. }
      assert (ND : NoDup (home point t ++ qrows q')) by (eapply Permutation_NoDup; [symmetry; exact P2|apply seq_NoDup]).
      rewrite get_distances_spec; auto. 2:{ intros i Hi. apply R. apply in_or_app. now left. }
      cbn [rbind].
      destruct (new_spec D k (home point t)) as (ps & E1 & G1 & L1 & T1); auto.
      { intros i Hi. apply NN, R. apply in_or_app. now left. }
      { revert ND. generalize (home point t). intros l. induction l; cbn; intros Q; [constructor|]. inversion Q; subst. constructor; auto. intros Q'. apply H1. apply in_or_app. now left. }
      rewrite E1. cbn [rbind]. rewrite Nat.min_l in L1 by auto.
      destruct (search_loop_topk k K (tsize t) q' (home point t) ps) as (ps' & seen' & E2 & G2 & L2 & T2 & R2); auto.
      rewrite E2. cbn [rbind]. exists (map fst ps'), (map snd ps'). split; auto. now apply (topk_nearest D _ k seen').
    Qed.
  End Tree.

  (** ** Construction *)
  Section Build.
    Context {G : Type} (B : BinarySplit (F := F) G) (data : matrix F).
    Notation cell r j := (nth j (nth r (mrows data) []) nzero).

    Definition lower (mn : list F) (r : nat) : Prop := forall j, j < mcols data -> nltb (cell r j) (nth j mn nzero) = false.
    Definition upper (mx : list F) (r : nat) : Prop := forall j, j < mcols data -> nltb (nth j mx nzero) (cell r j) = false.

    (** Every branch's geometry was built from rows inside the box passed along. *)
    Fixpoint geom_ok (t : node (F := F) G) : Prop :=
      match t with
      | Leaf _ => True
      | Branch dim _ g l r =>
          dim < mcols data /\
          (exists remains mn mx, bs_build B data remains mn mx = Ok g /\ Permutation remains (stored t) /\ remains <> [] /\
             length mn = mcols data /\ length mx = mcols data /\
             (forall i, In i remains -> i < nrows data /\ lower mn i /\ upper mx i)) /\ geom_ok l /\ geom_ok r
      end.

    Lemma argbest_range (better : F -> F -> bool) l : forall i bi bv, bi < i ->
      fst (argbest better l i bi bv) < i + length l.
    Proof.
      induction l as [|x l IH]; intros i bi bv H; cbn; [lia|]. destruct better.
      - specialize (IH (S i) i x ltac:(lia)). lia.
      - specialize (IH (S i) bi bv ltac:(lia)). lia.
    Qed.
    Lemma argmax_range (l : list F) dim d : argmax l = Ok (dim, d) -> dim < length l.
    Proof.
      unfold argmax. destruct l as [|x l]; [discriminate|]. intros H. inversion H. 
      pose proof (argbest_range (fun v m => nltb m v) l 1 0 x ltac:(lia)). rewrite H1 in H0. cbn in *. lia.
    Qed.

    Lemma nth_vset (v : list F) i j x d : i < length v -> nth j (vset v i x) d = if i =? j then x else nth j v d.
    Proof.
      revert i j. induction v as [|y v IH]; intros [|i] [|j] H; cbn in *; try lia; auto. apply IH. lia.
    Qed.

    Lemma filter_partition_perm (f : nat -> bool) l : Permutation (filter f l ++ filter (fun r => negb (f r)) l) l.
    Proof.
      induction l as [|x l IH]; cbn; auto. destruct (f x); cbn.
      - now constructor.
      - rewrite <- Permutation_middle. now constructor.
    Qed.
    Lemma filter_nil_other (f : nat -> bool) l : filter f l = [] -> filter (fun r => negb (f r)) l = l.
    Proof. induction l as [|x l IH]; cbn; auto. destruct (f x); cbn; [discriminate|]. intros. now rewrite IH. Qed.
    Lemma filter_nil_other' (f : nat -> bool) l : filter (fun r => negb (f r)) l = [] -> filter f l = l.
    Proof. induction l as [|x l IH]; cbn; auto. destruct (f x); cbn; [|discriminate]. intros. now rewrite IH. Qed.

    Lemma select_split_spec fuel : forall remains dmin dmax dim sp l r lmax rmin,
      length dmin = mcols data -> length dmax = mcols data ->
      (forall i, In i remains -> lower dmin i /\ upper dmax i) ->
      select_split fuel data remains dmin dmax = Some (Ok (dim, sp, l, r, lmax, rmin)) ->
      dim < mcols data /\ l = filter (fun i => nltb (cell i dim) sp) remains /\
      r = filter (fun i => negb (nltb (cell i dim) sp)) remains /\ l <> [] /\ r <> [] /\
      length lmax = mcols data /\ length rmin = mcols data /\
      (forall i, In i l -> upper lmax i) /\ (forall i, In i r -> lower rmin i).
    Proof.
      induction fuel as [|fuel IH]; intros remains dmin dmax dim sp l r lmax rmin Lmn Lmx Bx; cbn [select_split]; [discriminate|].
      destruct (argmax (vsub dmax dmin)) as [[dm d]| |] eqn:EA; try discriminate.
      apply argmax_range in EA. unfold vsub in EA. rewrite map2_length, Lmx, Lmn, Nat.min_id in EA.
      set (s := nadd (nth dm dmin nzero) (ndiv d (nadd nonev nonev))).
      set (f := fun r0 => nltb (cell r0 dm) s).
      destruct (filter f remains) as [|l0 ls] eqn:El.
      - apply filter_nil_other in El as El2. intros H.
        assert (RR : filter (fun r0 => negb (f r0)) remains = remains) by exact El2.
        change (filter (fun r0 : nat => negb (nltb (cell r0 dm) s)) remains) with (filter (fun r0 => negb (f r0)) remains) in H.
        rewrite RR in H. apply IH in H; auto.
        + now rewrite vset_length.
        + intros i Hi. split; [|now apply Bx]. intros j Hj. rewrite nth_vset by lia.
          destruct (Nat.eqb_spec dm j) as [<-|]; [|now apply Bx].
          rewrite <- RR in Hi. apply filter_In in Hi. destruct Hi as [_ Hi]. now apply negb_true_iff in Hi.
      - destruct (filter (fun r0 : nat => negb (nltb (cell r0 dm) s)) remains) as [|r0 rs] eqn:Er.
        + intros H. change (filter (fun r0 : nat => negb (f r0)) remains = []) in Er.
          apply filter_nil_other' in Er. rewrite <- El, Er in H. apply IH in H; auto.
          * now rewrite vset_length.
          * intros i Hi. split; [now apply Bx|]. intros j Hj. rewrite nth_vset by lia.
            destruct (Nat.eqb_spec dm j) as [<-|]; [|now apply Bx].
            rewrite <- Er in Hi. apply filter_In in Hi. destruct Hi as [_ Hi]. apply no_asym. exact Hi.
        + intros H. inversion H; subst; clear H. rewrite !vset_length. repeat split; auto; try discriminate.
          * intros i Hi j Hj. rewrite nth_vset by lia. rewrite <- El in Hi. apply filter_In in Hi. destruct Hi as [Hi1 Hi2].
            destruct (Nat.eqb_spec dim j) as [<-|]; [|now apply Bx]. apply no_asym. exact Hi2.
          * intros i Hi j Hj. rewrite nth_vset by lia. rewrite <- Er in Hi. apply filter_In in Hi. destruct Hi as [Hi1 Hi2].
            destruct (Nat.eqb_spec dim j) as [<-|]; [|now apply Bx]. now apply negb_true_iff in Hi2.
    Qed.

    Lemma split_spec leafsize fuel : forall remains dmin dmax t, remains <> [] ->
      length dmin = mcols data -> length dmax = mcols data ->
      (forall i, In i remains -> i < nrows data /\ lower dmin i /\ upper dmax i) ->
      split B fuel leafsize data remains dmin dmax = Some (Ok t) ->
      Permutation (stored t) remains /\ (forall c, In c (leaves t) -> c <> [] /\ length c < leafsize) /\ geom_ok t.
    Proof.
      induction fuel as [|fuel IH]; intros remains dmin dmax t NE Lmn Lmx Bx; cbn [split]; [discriminate|].
      destruct (length remains <? leafsize) eqn:LS.
      - intros H. inversion H; subst. cbn. apply Nat.ltb_lt in LS. repeat split; auto; destruct H0 as [<-|[]]; auto.
      - destruct (select_split fuel data remains dmin dmax) as [[[[[[[dim sp] l] r] lmax] rmin]|e|]|] eqn:ES; try discriminate.
        apply select_split_spec in ES; auto; [|intros i Hi; split; now apply Bx].
        destruct ES as (S1 & S2 & S3 & S4 & S5 & S6 & S7 & S8 & S9).
        destruct (split B fuel leafsize data l dmin lmax) as [[ln|e|]|] eqn:EL; try discriminate.
        destruct (split B fuel leafsize data r rmin dmax) as [[rn|e|]|] eqn:ER; try discriminate.
        destruct (bs_build B data remains dmin dmax) as [g|e|] eqn:EB; try discriminate.
        intros H. inversion H; subst t; clear H.
        assert (Il : forall i, In i l -> In i remains) by (intros i Hi; rewrite S2 in Hi; now apply filter_In in Hi).
        assert (Ir : forall i, In i r -> In i remains) by (intros i Hi; rewrite S3 in Hi; now apply filter_In in Hi).
        apply IH in EL; auto. 2:{ intros i Hi. destruct (Bx i (Il i Hi)) as (A1 & A2 & A3). auto. }
        apply IH in ER; auto. 2:{ intros i Hi. destruct (Bx i (Ir i Hi)) as (A1 & A2 & A3). auto. }
        destruct EL as (L1 & L2 & L3), ER as (R1 & R2 & R3).
        assert (P : Permutation (stored ln ++ stored rn) remains).
        { rewrite L1, R1, S2, S3. apply filter_partition_perm. }
        cbn [stored leaves geom_ok]. split; [exact P|]. split.
        + intros c Hc. apply in_app_or in Hc. destruct Hc; auto.
        + split; auto. split; auto. exists remains, dmin, dmax. repeat split; auto; try (now apply Bx). now symmetry.
    Qed.

    Hypothesis W : mwf data.
    Hypothesis NNd : no_nan_data data.

    Lemma row_length i : i < nrows data -> length (nth i (mrows data) []) = mcols data.
    Proof. intros H. unfold mwf in W. rewrite Forall_forall in W. apply W. now apply nth_In. Qed.

    (** Running minimum / maximum over rows. *)
    Lemma fold_best (pick : F -> F -> bool) (le : F -> F -> Prop)
      (Hsel : forall a b, nnan a = false -> nnan b = false -> le (if pick a b then b else a) a /\ le (if pick a b then b else a) b)
      (Htr : forall a b c, nnan b = false -> le a b -> le b c -> le a c) rows : forall acc n,
      length acc = n -> (forall r, In r rows -> length r = n) ->
      (forall j, j < n -> nnan (nth j acc nzero) = false) -> (forall r j, In r rows -> j < n -> nnan (nth j r nzero) = false) ->
      let res := fold_left (fun acc row => map2 (fun r v => if pick r v then v else r) acc row) rows acc in
      length res = n /\ forall j, j < n -> nnan (nth j res nzero) = false /\
        (le (nth j acc nzero) (nth j acc nzero) -> le (nth j res nzero) (nth j acc nzero)) /\ forall r, In r rows -> le (nth j res nzero) (nth j r nzero).
    Proof.
      induction rows as [|r rows IH]; intros acc n L Lr Na Nr; cbn [fold_left].
      - split; auto. intros j Hj. repeat split; auto. intros r [].
      - set (acc' := map2 (fun r v => if pick r v then v else r) acc r).
        assert (L' : length acc' = n) by (unfold acc'; rewrite map2_length, L, Lr by (now left); apply Nat.min_id).
        assert (E : forall j, j < n -> nth j acc' nzero = if pick (nth j acc nzero) (nth j r nzero) then nth j r nzero else nth j acc nzero).
        { intros j Hj. unfold acc'. apply (map2_nth (fun r v => if pick r v then v else r)); [lia|]. rewrite Lr; [lia|now left]. }
        destruct (IH acc' n L') as (A & C).
        + intros; apply Lr; now right.
        + intros j Hj. rewrite E by auto. destruct pick; auto. apply Nr; auto. now left.
        + intros; apply Nr; auto. now right.
        + split; auto. intros j Hj. destruct (C j Hj) as (C1 & C2 & C3).
          destruct (Hsel (nth j acc nzero) (nth j r nzero)) as (Q1 & Q2); auto. { apply Nr; auto. now left. }
          rewrite <- E in Q1, Q2 by auto.
          assert (Nj : nnan (nth j acc' nzero) = false). { rewrite E by auto. destruct pick; auto. apply Nr; auto. now left. }
          assert (R0 : le (nth j acc' nzero) (nth j acc' nzero)).
          { destruct (Hsel (nth j acc' nzero) (nth j acc' nzero)) as [Q _]; auto. destruct (pick _ _) in Q; auto. }
          repeat split; auto.
          * intros _. eapply Htr; [|apply C2; auto|exact Q1]. auto.
          * intros r' [<-|Hr']; [|now apply C3]. eapply Htr; [|apply C2; auto|exact Q2]. auto.
    Qed.

    Lemma data_min_spec : 0 < nrows data ->
      exists dmin, data_min data = Ok dmin /\ length dmin = mcols data /\ forall i, i < nrows data -> lower dmin i.
    Proof.
      intros NE. unfold data_min. destruct (mrows data) as [|r0 rows] eqn:ER; [unfold nrows in NE; rewrite ER in NE; cbn in NE; lia|].
      eexists. split; [reflexivity|]. rewrite <- ER.
      assert (IN : forall r, In r (mrows data) -> length r = mcols data) by (unfold mwf in W; now rewrite Forall_forall in W).
      assert (INN : forall r j, In r (mrows data) -> j < mcols data -> nnan (nth j r nzero) = false).
      { intros r j Hr Hj. destruct (In_nth _ _ [] Hr) as (i & Hi & <-). now apply NNd. }
      assert (R0 : In r0 (mrows data)) by (rewrite ER; now left).
      destruct (fold_best (fun a b => nltb b a) (fun a b => nltb b a = false)) with (rows := mrows data) (acc := r0) (n := mcols data) as (A & C); auto.
      - intros a b Ha Hb. destruct (nltb b a) eqn:E; split; auto; try (now apply no_asym); apply no_irr.
      - intros a b c Nb H1 H2. now apply (no_ntrans _ b).
      - split; [exact A|]. intros i Hi j Hj. apply (C j Hj). now apply nth_In.
    Qed.
    Lemma data_max_spec : 0 < nrows data ->
      exists dmax, data_max data = Ok dmax /\ length dmax = mcols data /\ forall i, i < nrows data -> upper dmax i.
    Proof.
      intros NE. unfold data_max. destruct (mrows data) as [|r0 rows] eqn:ER; [unfold nrows in NE; rewrite ER in NE; cbn in NE; lia|].
      eexists. split; [reflexivity|]. rewrite <- ER.
      assert (IN : forall r, In r (mrows data) -> length r = mcols data) by (unfold mwf in W; now rewrite Forall_forall in W).
      assert (INN : forall r j, In r (mrows data) -> j < mcols data -> nnan (nth j r nzero) = false).
      { intros r j Hr Hj. destruct (In_nth _ _ [] Hr) as (i & Hi & <-). now apply NNd. }
      assert (R0 : In r0 (mrows data)) by (rewrite ER; now left).
      destruct (fold_best (fun a b => nltb a b) (fun a b => nltb a b = false)) with (rows := mrows data) (acc := r0) (n := mcols data) as (A & C); auto.
      - intros a b Ha Hb. destruct (nltb a b) eqn:E; split; auto; try (now apply no_asym); apply no_irr.
      - intros a b c Nb H1 H2. now apply (no_ntrans _ b).
      - split; [exact A|]. intros i Hi j Hj. apply (C j Hj). now apply nth_In.
    Qed.

    Theorem build_spec fuel leafsize t : 0 < nrows data -> tree_build B fuel leafsize data = Some (Ok t) ->
      Permutation (stored t) (seq 0 (nrows data)) /\
      (forall c, In c (leaves t) -> c <> [] /\ length c < leafsize) /\ geom_ok t.
    Proof.
      intros NE. unfold tree_build.
      destruct (data_min_spec NE) as (dmin & -> & L1 & B1). destruct (data_max_spec NE) as (dmax & -> & L2 & B2).
      intros H. apply split_spec in H; auto.
      - destruct (nrows data); [lia|discriminate].
      - intros i Hi. apply in_seq in Hi. split; [lia|]. split; [apply B1|apply B2]; lia.
    Qed.

    Lemma build_shape point t : length point = mcols data -> (forall c, In c (leaves t) -> c <> []) -> geom_ok t -> shape_ok point t.
    Proof.
      intros Lp. induction t as [c|dim sp g l IHl r IHr]; cbn; intros H Gm.
      - apply H. now left.
      - destruct Gm as (G1 & _ & G3 & G4). rewrite Lp. repeat split; auto.
        + apply IHl; auto. intros; apply H; apply in_or_app; auto.
        + apply IHr; auto. intros; apply H; apply in_or_app; auto.
    Qed.

    (** Lower bound of the geometry on the rows it was built from. *)
    Definition geom_lower (point : list F) : Prop := forall remains mn mx g,
      bs_build B data remains mn mx = Ok g -> remains <> [] -> length mn = mcols data -> length mx = mcols data ->
      (forall i, In i remains -> i < nrows data /\ lower mn i /\ upper mx i) ->
      nnan (bs_dist B g point) = false /\
      forall i, In i remains -> nltb (rowdist data point i) (bs_dist B g point) = false.

    Lemma build_lower point t : geom_lower point -> geom_ok t -> lower_ok B data point t.
    Proof.
      intros GL. induction t as [c|dim sp g l IHl r IHr]; cbn; intros Gm; auto.
      destruct Gm as (G1 & (rem & mn & mx & E & P & NE & L1 & L2 & Bx) & G3 & G4).
      destruct (GL rem mn mx g E NE L1 L2 Bx) as (Q1 & Q2). repeat split; auto.
      intros j Hj. apply Q2. now apply (Permutation_in _ (Permutation_sym P)).
    Qed.

    Lemma home_in_leaves (point : list F) (t : node (F := F) G) : In (home point t) (leaves t).
    Proof. induction t; cbn; auto. destruct nltb; apply in_or_app; auto. Qed.

    (** Putting it together. *)
    Theorem built_search_genuine fuel leafsize t point k : 0 < nrows data -> 1 <= k -> length point = mcols data ->
      (forall i, i < nrows data -> nnan (rowdist data point i) = false) ->
      tree_build B fuel leafsize data = Some (Ok t) ->
      exists idx ds, tree_search B (Some (t, data)) point k = Ok (idx, ds) /\
        genuine (nrows data) (rowdist data point) idx ds /\ 1 <= length idx <= k.
    Proof.
      intros NE K Lp NN H. apply build_spec in H; auto. destruct H as (P & L & Gm).
      apply tree_search_genuine; auto. apply build_shape; auto. intros c Hc. now apply L.
    Qed.
    Theorem built_search_exact fuel leafsize t point k : 0 < nrows data -> 1 <= k -> length point = mcols data ->
      (forall i, i < nrows data -> nnan (rowdist data point i) = false) -> geom_lower point ->
      tree_build B fuel leafsize data = Some (Ok t) -> k <= length (home point t) ->
      exists idx ds, tree_search B (Some (t, data)) point k = Ok (idx, ds) /\
        k_nearest (nrows data) k (rowdist data point) idx ds.
    Proof.
      intros NE K Lp NN GL H KL. apply build_spec in H; auto. destruct H as (P & L & Gm).
      apply tree_search_exact; auto; [apply build_shape|apply build_lower]; auto. intros c Hc. now apply L.
    Qed.
    Theorem built_search_nearest fuel leafsize t point : 0 < nrows data -> length point = mcols data ->
      (forall i, i < nrows data -> nnan (rowdist data point i) = false) -> geom_lower point ->
      tree_build B fuel leafsize data = Some (Ok t) ->
      exists idx ds, tree_search B (Some (t, data)) point 1 = Ok (idx, ds) /\
        k_nearest (nrows data) 1 (rowdist data point) idx ds.
    Proof.
      intros NE Lp NN GL H. eapply built_search_exact; eauto. apply build_spec in H; auto. destruct H as (P & L & Gm).
      destruct (L _ (home_in_leaves point t)) as (Q & _). destruct (home point t); [easy|cbn; lia].
    Qed.
    (** With fewer rows than [leafsize] the tree is a single leaf. *)
    Theorem small_build fuel leafsize : 0 < nrows data < leafsize -> 0 < fuel ->
      tree_build B fuel leafsize data = Some (Ok (Leaf (seq 0 (nrows data)))).
    Proof.
      intros [NE LS] Hf. unfold tree_build.
      destruct (data_min_spec NE) as (dmin & -> & L1 & B1). destruct (data_max_spec NE) as (dmax & -> & L2 & B2).
      destruct fuel; [lia|]. cbn [split]. rewrite seq_length. rewrite (proj2 (Nat.ltb_lt _ _) LS). reflexivity.
    Qed.
  End Build.
End T.
