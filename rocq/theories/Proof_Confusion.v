From Coq Require Import List Arith Bool Sorted Lia Permutation.
From Verif Require Import Base BaseLemmas Model_Confusion Spec_Confusion.
Import ListNotations.

Section P.
  Context {T : Type} (leb eqb : T -> T -> bool).
  Hypothesis Heq : decides_eq eqb.

  Lemma eqb_refl x : eqb x x = true. Proof. apply Heq; auto. Qed.
  Lemma eqb_neq x y : x <> y -> eqb x y = false.
  Proof. intros H. destruct (eqb x y) eqn:E; auto. apply Heq in E. congruence. Qed.

  Lemma lookup_In k m v : lookup eqb k m = Some v -> In (k, v) m.
  Proof.
    induction m as [|[k' v'] m IH]; simpl; [discriminate|].
    destruct (eqb k k') eqn:E; intros H.
    - apply Heq in E. inversion H; subst; auto.
    - auto.
  Qed.
  Lemma lookup_None k m : lookup eqb k m = None -> ~ In k (map fst m).
  Proof.
    induction m as [|[k' v'] m IH]; simpl; auto.
    destruct (eqb k k') eqn:E; intros H; [discriminate|]. intros [->|Hin]; [rewrite eqb_refl in E; discriminate|].
    apply IH; auto.
  Qed.

  (** State of the index map: labels [done] have their positions. *)
  Definition indexed (m : list (T * nat)) (dn : list T) : Prop :=
    forall k v, lookup eqb k m = Some v <-> nth_error dn v = Some k.

  Lemma build_index_spec labels : forall m dn,
    indexed m dn -> NoDup dn ->
    (NoDup (dn ++ labels) -> exists m', build_index eqb (length dn) labels m = Ok m' /\ indexed m' (dn ++ labels)) /\
    (~ NoDup (dn ++ labels) -> build_index eqb (length dn) labels m = Panic).
  Proof.
    induction labels as [|l labels IH]; intros m dn Hm ND; simpl.
    - rewrite app_nil_r. split; [|tauto]. intros _. exists m. auto.
    - destruct (lookup eqb l m) as [v|] eqn:E.
      + apply Hm in E. apply nth_error_In in E.
        split; auto. intros H. exfalso. apply NoDup_remove_2 in H. apply H. apply in_or_app; auto.
      + assert (Hnin : ~ In l dn).
        { intros Hin. apply In_nth_error in Hin. destruct Hin as (v & Hv). apply Hm in Hv. congruence. }
        destruct (IH ((l, length dn) :: m) (dn ++ [l])) as [I1 I2].
        * intros k v. simpl. destruct (eqb k l) eqn:Ek.
          -- apply Heq in Ek. subst k. split.
             ++ intros H; inversion H; subst. rewrite nth_error_app2, Nat.sub_diag by lia. reflexivity.
             ++ intros H. destruct (lt_dec v (length dn)) as [Hlt|Hge].
                ** rewrite nth_error_app1 in H by lia. apply nth_error_In in H. tauto.
                ** rewrite nth_error_app2 in H by lia. destruct (v - length dn) as [|q] eqn:Q; simpl in H.
                   --- f_equal. lia. --- destruct q; discriminate.
          -- rewrite (Hm k v). split.
             ++ intros H. rewrite nth_error_app1; auto. apply nth_error_Some. congruence.
             ++ intros H. destruct (lt_dec v (length dn)) as [Hlt|Hge].
                ** rewrite nth_error_app1 in H by lia. auto.
                ** rewrite nth_error_app2 in H by lia. destruct (v - length dn) as [|q] eqn:Q; simpl in H.
                   --- inversion H; subst. rewrite eqb_refl in Ek. discriminate.
                   --- destruct q; discriminate.
        * apply NoDup_snoc; auto.
        * rewrite app_length in I1, I2. simpl in I1, I2. rewrite Nat.add_1_r in I1, I2.
          rewrite <- app_assoc in I1, I2. simpl in I1, I2. auto.
  Qed.

  Lemma bump_spec n counts row col :
    square n counts -> row < n -> col < n ->
    exists counts', bump counts row col = Ok counts' /\ square n counts' /\
      forall i j, entry counts' i j =
        if (i =? row) && (j =? col) then option_map S (entry counts i j) else entry counts i j.
  Proof.
    intros [Hl Hr] Hrow Hcol. unfold bump.
    destruct (nth_error counts row) as [r|] eqn:Er; [|apply nth_error_None in Er; lia].
    assert (Hlr : length r = n) by (apply Hr; eapply nth_error_In; eauto).
    destruct (nth_error r col) as [c|] eqn:Ec; [|apply nth_error_None in Ec; lia].
    destruct (upd r col (c + 1)) as [r'|] eqn:Ur; [|apply upd_None in Ur; lia].
    destruct (upd counts row r') as [cs|] eqn:Uc; [|apply upd_None in Uc; lia].
    exists cs. split; auto. split.
    - split; [apply upd_length in Uc; lia|]. intros r0 Hin. apply In_nth_error in Hin. destruct Hin as (i & Hi).
      rewrite (upd_nth_error _ _ _ _ i Uc) in Hi. destruct (i =? row).
      + inversion Hi; subst. apply upd_length in Ur. lia.
      + apply Hr. eapply nth_error_In; eauto.
    - intros i j. unfold entry. rewrite (upd_nth_error _ _ _ _ i Uc).
      destruct (Nat.eqb_spec i row) as [->|]; simpl; auto.
      rewrite (upd_nth_error _ _ _ _ j Ur), Er. destruct (Nat.eqb_spec j col) as [->|]; auto.
      rewrite Ec. simpl. f_equal. lia.
  Qed.

  Lemma count_loop_spec labels m : indexed m labels -> NoDup labels -> forall ts ps counts,
    square (length labels) counts ->
    exists counts', count_loop eqb m (combine ts ps) counts = Ok counts' /\ square (length labels) counts' /\
     forall i j t p, nth_error labels i = Some t -> nth_error labels j = Some p ->
       entry counts' i j = option_map (fun c => c + samples eqb t p ts ps) (entry counts i j).
  Proof.
    intros Hm ND. induction ts as [|t ts IH]; intros ps counts Hsq.
    - simpl. exists counts. split; [|split]; auto. intros. destruct (entry counts i j); simpl; auto.
    - destruct ps as [|p ps].
      { simpl. exists counts. split; [|split]; auto. intros. destruct (entry counts i j); simpl; auto. }
      simpl. destruct (lookup eqb t m) as [row|] eqn:Et; [destruct (lookup eqb p m) as [col|] eqn:Ep|].
      + apply Hm in Et, Ep.
        assert (Hrow : row < length labels) by (apply nth_error_Some; congruence).
        assert (Hcol : col < length labels) by (apply nth_error_Some; congruence).
        destruct (bump_spec _ counts row col Hsq Hrow Hcol) as (c1 & -> & Hsq1 & He1). simpl.
        destruct (IH ps c1 Hsq1) as (c2 & -> & Hsq2 & He2). exists c2. split; [|split]; auto.
        intros i j t' p' Hi Hj. rewrite (He2 i j t' p' Hi Hj), He1.
        assert (Ei : eqb t' t = (i =? row)).
        { destruct (Nat.eqb_spec i row) as [->|Hne].
          - apply Heq. congruence.
          - apply eqb_neq. intros ->. apply Hne. apply (NoDup_nth_error labels); auto; [apply nth_error_Some; congruence|congruence]. }
        assert (Ej : eqb p' p = (j =? col)).
        { destruct (Nat.eqb_spec j col) as [->|Hne].
          - apply Heq. congruence.
          - apply eqb_neq. intros ->. apply Hne. apply (NoDup_nth_error labels); auto; [apply nth_error_Some; congruence|congruence]. }
        rewrite Ei, Ej. destruct ((i =? row) && (j =? col)); destruct (entry counts i j); simpl; auto; f_equal; lia.
      + destruct (IH ps counts Hsq) as (c2 & -> & Hsq2 & He2). exists c2. split; [|split]; auto.
        intros i j t' p' Hi Hj. rewrite (He2 i j t' p' Hi Hj).
        replace (eqb p' p) with false; [rewrite andb_false_r; reflexivity|].
        symmetry. apply eqb_neq. intros ->. apply Hm in Hj. congruence.
      + destruct (IH ps counts Hsq) as (c2 & -> & Hsq2 & He2). exists c2. split; [|split]; auto.
        intros i j t' p' Hi Hj. rewrite (He2 i j t' p' Hi Hj).
        replace (eqb t' t) with false; [reflexivity|].
        symmetry. apply eqb_neq. intros ->. apply Hm in Hi. congruence.
  Qed.

  Lemma nth_error_repeat {B} (b : B) n i : i < n -> nth_error (repeat b n) i = Some b.
  Proof. revert i; induction n; intros [|i] H; simpl; auto; try lia. apply IHn; lia. Qed.

  Lemma tabulate_labels ts ps labels :
    NoDup labels ->
    exists m counts, build_index eqb 0 labels [] = Ok m /\
      count_loop eqb m (combine ts ps) (repeat (repeat 0 (length labels)) (length labels)) = Ok counts /\
      tabulates eqb labels ts ps counts.
  Proof.
    intros ND. destruct (build_index_spec labels [] []) as [B _].
    - intros k v. simpl. destruct v; split; discriminate.
    - constructor.
    - destruct (B ND) as (m & Em & Hm). exists m. simpl in *.
      destruct (count_loop_spec labels m Hm ND ts ps (repeat (repeat 0 (length labels)) (length labels))) as (c & Ec & Hsq & He).
      + split; [apply repeat_length|]. intros r Hr. apply repeat_spec in Hr. subst. apply repeat_length.
      + exists c. split; auto. split; auto. split; auto.
        intros i j t p Hi Hj. rewrite (He i j t p Hi Hj). unfold entry.
        rewrite nth_error_repeat by (apply nth_error_Some; congruence).
        rewrite nth_error_repeat by (apply nth_error_Some; congruence). reflexivity.
  Qed.

  Lemma with_labels preds targets labels :
    (length preds <> length targets \/ ~ NoDup labels ->
       confusion_matrix leb eqb preds targets (Some labels) = Panic) /\
    (length preds = length targets -> NoDup labels ->
       exists m, confusion_matrix leb eqb preds targets (Some labels) = Ok m /\
                 tabulates eqb labels targets preds m).
  Proof.
    unfold confusion_matrix. split.
    - intros [H|H].
      + apply Nat.eqb_neq in H. rewrite H. reflexivity.
      + destruct (length preds =? length targets); [|reflexivity]. simpl.
        destruct (build_index_spec labels [] []) as [_ B].
        * intros k v. simpl. destruct v; split; discriminate.
        * constructor.
        * simpl in B. rewrite (B H). reflexivity.
    - intros H ND. apply Nat.eqb_eq in H. rewrite H. simpl.
      destruct (tabulate_labels targets preds labels ND) as (m & c & -> & E & Ht). simpl. eauto.
  Qed.

  Hypothesis Hto : total_order leb.

  Lemma insert_In x y l : In x (insert leb y l) <-> x = y \/ In x l.
  Proof.
    induction l as [|z l IH]; simpl. - intuition.
    - destruct (leb y z); simpl; [intuition|]. rewrite IH. intuition.
  Qed.
  Lemma sort_In x l : In x (sort leb l) <-> In x l.
  Proof. induction l; simpl; [tauto|]. rewrite insert_In, IHl. intuition. Qed.
  Lemma insert_sorted x l :
    StronglySorted (fun a b => leb a b = true) l -> StronglySorted (fun a b => leb a b = true) (insert leb x l).
  Proof.
    destruct Hto as (Htot & _ & Htr).
    induction l as [|y l IH]; intros H; simpl. - repeat constructor.
    - inversion H as [|? ? Hs Hf]; subst. destruct (leb x y) eqn:E.
      + constructor; auto. constructor; auto. rewrite Forall_forall in Hf |- *. eauto.
      + constructor; auto. rewrite Forall_forall in *. intros z Hz. apply insert_In in Hz.
        destruct Hz as [->|Hz]; auto. destruct (Htot x y); congruence.
  Qed.
  Lemma sort_sorted l : StronglySorted (fun a b => leb a b = true) (sort leb l).
  Proof. induction l; simpl; [constructor|]. apply insert_sorted; auto. Qed.

  Lemma dedup_from_spec x l :
    StronglySorted (fun a b => leb a b = true) (x :: l) ->
    ascending leb (x :: dedup_from eqb x l) /\ forall y, In y (x :: dedup_from eqb x l) <-> In y (x :: l).
  Proof.
    destruct Hto as (Htot & Has & Htr).
    revert x; induction l as [|y l IH]; intros x H; simpl.
    - split; [repeat constructor|tauto].
    - inversion H as [|? ? Hs Hf]; subst. inversion Hf as [|? ? Hxy Hfl]; subst.
      destruct (eqb x y) eqn:E.
      + apply Heq in E. subst y. destruct (IH x) as [A B]; auto. split; auto.
        intros z. rewrite (B z). simpl. tauto.
      + destruct (IH y Hs) as [A B]. split.
        * constructor; auto. rewrite Forall_forall. intros z Hz. apply B in Hz.
          assert (x <> y) by (intros ->; rewrite eqb_refl in E; discriminate).
          inversion Hs as [|? ? _ Hfy]; subst. rewrite Forall_forall in Hfy.
          destruct Hz as [->|Hz]; auto. split; [eapply Htr; [exact Hxy|]; auto|].
          intros ->. apply H0. apply Has; auto.
        * intros z. specialize (B z). simpl in *. intuition.
  Qed.

  Lemma ordered_distinct_spec xs ys :
    ascending leb (ordered_distinct leb eqb xs ys) /\
    forall y, In y (ordered_distinct leb eqb xs ys) <-> In y xs \/ In y ys.
  Proof.
    unfold ordered_distinct, dedup. pose proof (sort_sorted (xs ++ ys)) as Hs.
    pose proof (fun y => sort_In y (xs ++ ys)) as Hin.
    destruct (sort leb (xs ++ ys)) as [|x l].
    - split; [constructor|]. intros y. rewrite <- in_app_iff, <- Hin. tauto.
    - destruct (dedup_from_spec x l Hs) as [A B]. split; auto.
      intros y. rewrite <- in_app_iff, <- Hin. auto.
  Qed.

  Lemma ascending_NoDup l : ascending leb l -> NoDup l.
  Proof.
    destruct Hto as (Htot & Has & Htr).
    induction 1 as [|x l Hs IH Hf]; constructor; auto. intros Hin. rewrite Forall_forall in Hf.
    destruct (Hf x Hin). congruence.
  Qed.

  (** Sum of a complete tabulation. *)
  Lemma tabulates_total labels targets preds m :
    NoDup labels -> length preds = length targets ->
    (forall x, In x targets -> In x labels) -> (forall x, In x preds -> In x labels) ->
    tabulates eqb labels targets preds m -> total m = length targets.
  Proof.
    intros ND Hlen Ht Hp [[Hl Hr] He].
    assert (Hm : m = map (fun t => map (fun p => samples eqb t p targets preds) labels) labels).
    { apply nth_error_ext'. intros i. rewrite nth_error_map.
      destruct (nth_error labels i) as [t|] eqn:Et; simpl.
      - destruct (nth_error m i) as [r|] eqn:Er.
        2:{ apply nth_error_None in Er. assert (i < length labels) by (apply nth_error_Some; congruence). lia. }
        f_equal. apply nth_error_ext'. intros j. rewrite nth_error_map.
        destruct (nth_error labels j) as [p|] eqn:Ep; simpl.
        + specialize (He i j t p Et Ep). unfold entry in He. rewrite Er in He. auto.
        + apply nth_error_None in Ep. apply nth_error_None. rewrite (Hr r) by (eapply nth_error_In; eauto). auto.
      - apply nth_error_None in Et. apply nth_error_None. lia. }
    subst m. clear Hl Hr He. unfold total. rewrite map_map.
    revert preds Hlen Ht Hp. induction targets as [|t ts IH]; intros [|p ps] Hlen Ht Hp; try discriminate.
    - simpl. assert (Z : forall l : list T, list_sum (map (fun _ : T => 0) l) = 0) by (induction l; simpl; auto).
      rewrite (map_ext _ (fun _ : T => 0)); auto.
    - assert (SUM : forall (f g : T -> nat) l, list_sum (map (fun x => f x + g x) l) = list_sum (map f l) + list_sum (map g l)).
      { clear. induction l; simpl; auto. lia. }
      assert (ONE : forall x l, NoDup l -> In x l -> list_sum (map (fun y => if eqb y x then 1 else 0) l) = 1).
      { clear -Heq. induction l as [|y l IH]; intros ND Hin; [destruct Hin|]. inversion ND; subst.
        destruct Hin as [->|Hin]; simpl.
        - rewrite eqb_refl. f_equal. assert (forall l', ~ In x l' -> list_sum (map (fun y => if eqb y x then 1 else 0) l') = 0).
          { clear -Heq. induction l'; simpl; intros H; auto. rewrite eqb_neq by tauto. auto. }
          rewrite H; auto.
        - rewrite eqb_neq by (intros ->; tauto). simpl. auto. }
      simpl samples.
      rewrite (map_ext _ (fun t0 => (if eqb t0 t then 1 else 0) + list_sum (map (fun p0 => samples eqb t0 p0 ts ps) labels))).
      2:{ intros t0. rewrite SUM. f_equal. destruct (eqb t0 t); simpl.
          - apply ONE; auto. apply Hp; left; auto.
          - clear. induction labels; simpl; auto. }
      rewrite SUM. rewrite ONE; auto; [|apply Ht; left; auto].
      rewrite IH; simpl in *; auto.
  Qed.

  Lemma without_labels preds targets :
    (length preds <> length targets -> confusion_matrix leb eqb preds targets None = Panic) /\
    (length preds = length targets ->
     exists labels m, confusion_matrix leb eqb preds targets None = Ok m /\
       ascending leb labels /\ (forall x, In x labels <-> In x preds \/ In x targets) /\
       tabulates eqb labels targets preds m /\ total m = length targets).
  Proof.
    unfold confusion_matrix. split.
    - intros H. apply Nat.eqb_neq in H. rewrite H. reflexivity.
    - intros H. pose proof H as H'. apply Nat.eqb_eq in H'. rewrite H'. simpl.
      destruct (ordered_distinct_spec preds targets) as [A B].
      pose proof (ascending_NoDup _ A) as ND.
      destruct (tabulate_labels targets preds _ ND) as (m & c & -> & E & Ht). simpl. rewrite E.
      exists (ordered_distinct leb eqb preds targets), c. split; auto. split; auto. split; auto. split; auto.
      eapply tabulates_total; eauto; intros x Hx; apply B; auto.
  Qed.
End P.
