From Coq Require Import List Arith Lia Bool Permutation.
From Verif Require Import Base BaseLemmas Model_Rand Proof_Rand Model_CrossVal Spec_CrossVal.
Import ListNotations.

Section Folds.
  Variable idx : list nat.
  Variable k : nat.
  Hypothesis Hk : 1 < k.
  Hypothesis Hn : k <= length idx.
  Let n := length idx.
  Let q := n / k.
  Let r := n mod k.
  Definition start (c : nat) : nat := c * q + Nat.min c r.
  Definition size (c : nat) : nat := if r <=? c then q else q + 1.

  Lemma n_eq : n = k * q + r. Proof. apply Nat.div_mod. lia. Qed.
  Lemma r_lt : r < k. Proof. apply Nat.mod_upper_bound. lia. Qed.

  Lemma start_S c : start (S c) = start c + size c.
  Proof.
    unfold start, size. destruct (Nat.leb_spec r c).
    - rewrite !Nat.min_r by lia. lia.
    - rewrite !Nat.min_l by lia. lia.
  Qed.
  Lemma start_k : start k = n.
  Proof. unfold start. pose proof r_lt. rewrite Nat.min_r by lia. pose proof n_eq. lia. Qed.
  Lemma start_mono c d : c <= d -> start c <= start d.
  Proof. induction 1; auto. rewrite start_S. lia. Qed.

  Definition test_of c := firstn (size c) (skipn (start c) idx).
  Definition train_of c := firstn (start c) idx ++ skipn (start (S c)) idx.

  Lemma fold_at_eq c : c < k -> fold_at idx k c = Some (train_of c, test_of c).
  Proof.
    intros Hc. unfold fold_at. fold n q r. fold (start c) (size c).
    pose proof (start_S c) as HS. pose proof (start_mono (S c) k ltac:(lia)) as HM. rewrite start_k in HM.
    rewrite <- HS. unfold slice. fold n.
    destruct (Nat.leb_spec (start c) n); [|lia]. destruct (Nat.leb_spec (start (S c)) n); [|lia].
    destruct (Nat.leb_spec (start c) (start (S c))); [|lia].
    rewrite Nat.leb_refl. simpl. rewrite Nat.sub_0_r.
    unfold train_of, test_of. f_equal. f_equal.
    - f_equal. rewrite firstn_all2; auto. rewrite skipn_length. fold n. lia.
    - f_equal. lia.
  Qed.

  Lemma fold_perm c : c < k -> Permutation (train_of c ++ test_of c) idx.
  Proof.
    intros Hc. unfold train_of, test_of.
    rewrite <- app_assoc. rewrite (Permutation_app_comm (skipn _ _)).
    replace (start (S c)) with (start c + size c) by (rewrite start_S; lia).
    assert (E : idx = firstn (start c) idx ++ firstn (size c) (skipn (start c) idx) ++ skipn (start c + size c) idx).
    { rewrite <- (firstn_skipn (start c) idx) at 1. f_equal.
      rewrite <- (firstn_skipn (size c) (skipn (start c) idx)) at 1. f_equal. rewrite skipn_skipn'. reflexivity. }
    rewrite E at 4. reflexivity.
  Qed.

  Lemma test_length c : c < k -> length (test_of c) = size c.
  Proof.
    intros Hc. unfold test_of. rewrite firstn_length, skipn_length. fold n.
    pose proof (start_S c). pose proof (start_mono (S c) k ltac:(lia)). rewrite start_k in *. lia.
  Qed.

  Lemma folds_from_eq m c : c + m = k ->
    folds_from idx k c m = Ok (map (fun i => (train_of i, test_of i)) (seq c m)).
  Proof.
    revert c; induction m; intros c H; simpl; auto.
    rewrite fold_at_eq by lia. rewrite IHm by lia. reflexivity.
  Qed.

  Lemma tests_concat c : c <= k -> concat (map test_of (seq 0 c)) = firstn (start c) idx.
  Proof.
    induction c; intros Hc.
    - reflexivity.
    - rewrite seq_S, map_app, concat_app, IHc by lia. simpl. rewrite app_nil_r.
      rewrite start_S. unfold test_of. apply firstn_skipn_add.
  Qed.

  Lemma folds_eq : folds idx k = Ok (map (fun i => (train_of i, test_of i)) (seq 0 k)).
  Proof.
    unfold folds. fold n. destruct (Nat.ltb_spec 1 k); [|lia]. destruct (Nat.leb_spec k n); [|unfold n in *; lia].
    simpl. apply folds_from_eq. lia.
  Qed.

  Lemma folds_partition : Permutation idx (seq 0 n) ->
    kfold_partition n k (map (fun i => (train_of i, test_of i)) (seq 0 k)).
  Proof.
    intros P. split; [|split; [|split]].
    - rewrite map_length, seq_length. auto.
    - intros tr te Hin. apply in_map_iff in Hin. destruct Hin as (c & E & Hc). inversion E; subst.
      apply in_seq in Hc. rewrite fold_perm by lia. auto.
    - rewrite map_map. simpl. rewrite tests_concat by lia. rewrite start_k. unfold n. rewrite firstn_all. auto.
    - intros i tr te Hi. rewrite nth_error_map in Hi. destruct (nth_error (seq 0 k) i) as [c|] eqn:E; [|discriminate].
      simpl in Hi. inversion Hi; subst.
      assert (i < k). { assert (i < length (seq 0 k)) by (apply nth_error_Some; congruence). rewrite seq_length in *. auto. }
      apply nth_error_nth with (d := 0) in E. rewrite seq_nth in E by auto. simpl in E. subst c.
      rewrite test_length by auto. unfold size. fold q r.
      destruct (Nat.leb_spec r i); destruct (Nat.ltb_spec i r); lia.
  Qed.
End Folds.

Lemma folds_spec idx k n : Permutation idx (seq 0 n) ->
  (1 < k <= n -> exists ps, folds idx k = Ok ps /\ kfold_partition n k ps) /\
  (~ (1 < k <= n) -> folds idx k = Panic).
Proof.
  intros P. assert (Hl : length idx = n) by (rewrite (Permutation_length P), seq_length; auto).
  split.
  - intros [H1 H2]. eexists. split.
    + apply folds_eq; auto. lia.
    + rewrite <- Hl. apply folds_partition; auto; try lia. rewrite Hl. auto.
  - intros H. unfold folds. rewrite Hl. destruct (Nat.ltb_spec 1 k); destruct (Nat.leb_spec k n); simpl; auto. exfalso; apply H; auto.
Qed.

Lemma select_rows_spec {X} (rows : list X) idx :
  (forall i, In i idx -> i < length rows) ->
  exists xs, select_rows rows idx = Ok xs /\ rows_at rows idx xs.
Proof.
  unfold select_rows. induction idx as [|i idx IH]; intros H; simpl.
  - exists []. split; auto. constructor.
  - unfold ridx at 1. destruct (nth_error rows i) as [x|] eqn:E.
    + simpl. destruct IH as (xs & -> & Hx); [intros; apply H; right; auto|]. simpl.
      exists (x :: xs). split; auto. constructor; auto.
    + apply nth_error_None in E. specialize (H i (or_introl eq_refl)). lia.
Qed.

Section KF.
  Context {M X Y F : Type}.
  Variable train : M -> list X -> list Y -> res unit * M.
  Variable predict : M -> list X -> res (list Y).
  Variable score : list Y -> list Y -> res F.

  Lemma kfold_loop_validated inputs targets ps m :
    length inputs = length targets ->
    (forall tr te, In (tr, te) ps -> forall i, In i (tr ++ te) -> i < length inputs) ->
    validated train predict score inputs targets ps m
      (fst (kfold_loop train predict score inputs targets ps m))
      (snd (kfold_loop train predict score inputs targets ps m)).
  Proof.
    intros Hl. revert m. induction ps as [|[tr te] ps IH]; intros m Hb; simpl.
    - constructor.
    - assert (Htr : forall i, In i tr -> i < length inputs) by (intros; eapply Hb; [left; eauto|apply in_or_app; auto]).
      assert (Hte : forall i, In i te -> i < length inputs) by (intros; eapply Hb; [left; eauto|apply in_or_app; auto]).
      destruct (select_rows_spec inputs tr Htr) as (xtr & -> & Rxtr).
      destruct (select_rows_spec targets tr) as (ytr & -> & Rytr); [rewrite <- Hl; auto|].
      destruct (select_rows_spec inputs te Hte) as (xte & -> & Rxte).
      destruct (select_rows_spec targets te) as (yte & -> & Ryte); [rewrite <- Hl; auto|].
      destruct (train m xtr ytr) as [r m1] eqn:Et.
      destruct r as [[]|e|].
      + destruct (predict m1 xte) as [out|e|] eqn:Ep.
        * destruct (score out yte) as [c|e|] eqn:Es.
          -- specialize (IH m1 ltac:(intros; eapply Hb; [right; eauto|eauto])).
             destruct (kfold_loop train predict score inputs targets ps m1) as [rr m2]. simpl in IH.
             destruct rr as [cs|e|]; simpl.
             ++ eapply v_cons; eauto.
             ++ eapply v_later; eauto.
             ++ eapply v_later; eauto.
          -- simpl. change (@Err (list F) e) with (match @Err F e with Err k => @Err (list F) k | _ => Panic end).
             eapply v_score; eauto.
          -- simpl. change (@Panic (list F)) with (match @Panic F with Err k => @Err (list F) k | _ => Panic end).
             eapply v_score with (e := InvalidData); eauto.
        * simpl. change (@Err (list F) e) with (match @Err (list Y) e with Err k => @Err (list F) k | _ => Panic end).
             eapply v_predict; eauto.
        * simpl. change (@Panic (list F)) with (match @Panic (list Y) with Err k => @Err (list F) k | _ => Panic end).
             eapply v_predict with (e := InvalidData); eauto.
      + simpl. change (@Err (list F) e) with (match @Err unit e with Err k => @Err (list F) k | _ => Panic end).
             eapply v_train; eauto.
      + simpl. change (@Panic (list F)) with (match @Panic unit with Err k => @Err (list F) k | _ => Panic end).
             eapply v_train with (e := InvalidData); eauto.
  Qed.

  Lemma k_fold_validate_spec inputs targets k m o :
    outcome (k_fold_validate train predict score m inputs targets k) o ->
    (~ (length inputs = length targets /\ 1 < k <= length inputs) /\ o = None) \/
    (length inputs = length targets /\ 1 < k <= length inputs /\
     exists ps r m', o = Some (r, m') /\ kfold_partition (length inputs) k ps /\
       validated train predict score inputs targets ps m r m').
  Proof.
    unfold k_fold_validate. destruct (Nat.eqb_spec (length inputs) (length targets)) as [Hl|Hl]; intros Ho.
    2:{ inversion Ho; subst. left. split; auto. tauto. }
    apply outcome_bind in Ho. destruct Ho as [(idx & Hi & Ho)|[-> Hn]].
    2:{ apply in_place_perm in Hn. destruct Hn as (t & E & _). discriminate. }
    apply in_place_perm in Hi. destruct Hi as (t & E & P). inversion E; subst t.
    destruct (folds_spec idx k (length inputs) (Permutation_sym P)) as [F1 F2].
    destruct (Nat.ltb_spec 1 k) as [H1|H1]; [destruct (Nat.leb_spec k (length inputs)) as [H2|H2]|].
    - right. split; auto. split; auto. destruct (F1 (conj H1 H2)) as (ps & E2 & KP). rewrite E2 in Ho.
      inversion Ho; subst. exists ps.
      destruct (kfold_loop train predict score inputs targets ps m) as [r m'] eqn:EL.
      exists r, m'. split; auto. split; auto.
      replace r with (fst (kfold_loop train predict score inputs targets ps m)) by (rewrite EL; auto).
      replace m' with (snd (kfold_loop train predict score inputs targets ps m)) by (rewrite EL; auto).
      apply kfold_loop_validated; auto. destruct KP as (_ & K & _). intros tr te Hin i Hii.
      apply K in Hin. eapply Permutation_in in Hii; eauto. apply in_seq in Hii. lia.
    - left. rewrite F2 in Ho by lia. inversion Ho; subst. split; auto. lia.
    - left. rewrite F2 in Ho by lia. inversion Ho; subst. split; auto. lia.
  Qed.

  Lemma validated_memoryless inputs targets ps m0 m cs m' :
    memoryless train -> validated train predict score inputs targets ps m (Ok cs) m' ->
    Forall2 (split_score train predict score inputs targets m0) ps cs.
  Proof.
    intros Hml H. remember (Ok cs) as r eqn:Er. revert cs Er. induction H; intros cs0 Er.
    - inversion Er; constructor.
    - inversion Er; subst. constructor; auto. exists xtr, ytr, xte, yte, m1, out. simpl.
      repeat split; auto. rewrite (Hml m0 m). auto.
    - destruct H7 as [->|(e & ->)]; discriminate.
    - destruct H2 as [->| ->]; discriminate.
    - destruct H4 as [E| E]; rewrite E in Er; discriminate.
    - destruct H6 as [E| E]; rewrite E in Er; discriminate.
  Qed.
End KF.
