(** * The majority vote and the classifier *)
From Coq Require Import List Arith Lia Bool Permutation Sorted Reals.
From Verif Require Import Base BaseLemmas Num NumOrd Linalg LinalgR Spec_Calc Model_KNN Spec_KNN Proof_KNearest Proof_Tree Proof_TreeBall.
Import ListNotations.

(** Keys ascending. *)
Definition ksorted (m : list (nat * nat)) : Prop := StronglySorted lt (map fst m).
Definition get (m : list (nat * nat)) (l : nat) : nat :=
  match find (fun p => fst p =? l) m with Some p => snd p | None => 0 end.

Lemma freq_add_fst l m : forall x, In x (map fst (freq_add l m)) <-> x = l \/ In x (map fst m).
Proof.
  induction m as [|(y, c) m IH]; intros x; cbn [freq_add]; [cbn; intuition|].
  destruct (Nat.ltb_spec l y); [cbn; intuition|]. destruct (Nat.eqb_spec l y) as [->|]; cbn [map fst In]; [intuition|]. rewrite IH. intuition.
Qed.
Lemma freq_add_sorted l m : ksorted m -> ksorted (freq_add l m).
Proof.
  unfold ksorted. induction m as [|(y, c) m IH]; cbn [freq_add map fst]; intros S.
  - repeat constructor.
  - inversion S as [|? ? S' H']; subst. destruct (Nat.ltb_spec l y) as [H|H]; cbn [map fst].
    + constructor; auto. constructor; auto. eapply Forall_impl; [|exact H']. cbn. intros. lia.
    + destruct (Nat.eqb_spec l y) as [->|H0]; cbn [map fst]; auto.
      constructor; auto. apply Forall_forall. intros x Hx. apply freq_add_fst in Hx. destruct Hx as [->|Hx]; [lia|].
      rewrite Forall_forall in H'. now apply H'.
Qed.
Lemma get_notin m l : ~ In l (map fst m) -> get m l = 0.
Proof.
  unfold get. intros H. destruct (find _ m) as [p|] eqn:E; auto. apply find_some in E. destruct E as [E1 E2].
  apply Nat.eqb_eq in E2. exfalso. apply H. rewrite <- E2. now apply in_map.
Qed.
Lemma freq_add_get l m x : ksorted m -> get (freq_add l m) x = get m x + if Nat.eq_dec l x then 1 else 0.
Proof.
  unfold ksorted, get. induction m as [|(y, c) m IH]; cbn [freq_add map fst]; intros S.
  - cbn. destruct (Nat.eqb_spec l x), (Nat.eq_dec l x); cbn; lia.
  - inversion S as [|? ? S' H']; subst. destruct (Nat.ltb_spec l y) as [H|H].
    + cbn [find fst]. destruct (Nat.eqb_spec l x) as [->|N].
      * destruct (Nat.eq_dec x x); [|easy]. cbn. assert (y <> x) by lia. rewrite (proj2 (Nat.eqb_neq y x)) by auto.
        destruct (find (fun p => fst p =? x) m) as [p|] eqn:E; [|lia]. apply find_some in E. destruct E as [E1 E2]. apply Nat.eqb_eq in E2.
        rewrite Forall_forall in H'. specialize (H' (fst p) (in_map fst _ _ E1)). lia.
      * destruct (Nat.eq_dec l x); [easy|]. rewrite Nat.add_0_r. reflexivity.
    + destruct (Nat.eqb_spec l y) as [->|N]; cbn [find fst].
      * destruct (Nat.eqb_spec y x) as [->|N]; cbn; destruct (Nat.eq_dec _ _); try easy; lia.
      * destruct (Nat.eqb_spec y x) as [->|N']; cbn.
        -- destruct (Nat.eq_dec l x); [easy|lia].
        -- now apply IH.
Qed.

Lemma freq_spec_gen labels : forall m, ksorted m ->
  ksorted (fold_left (fun m l => freq_add l m) labels m) /\
  (forall x, In x (map fst (fold_left (fun m l => freq_add l m) labels m)) <-> In x labels \/ In x (map fst m)) /\
  (forall x, get (fold_left (fun m l => freq_add l m) labels m) x = get m x + count_occ Nat.eq_dec labels x).
Proof.
  induction labels as [|l labels IH]; intros m S; cbn [fold_left].
  - cbn. repeat split; auto; intuition.
  - destruct (IH (freq_add l m) (freq_add_sorted l m S)) as (A & B & C). repeat split; auto.
    + intros H. apply B in H. rewrite freq_add_fst in H. cbn. intuition.
    + intros H. apply B. rewrite freq_add_fst. cbn in H. intuition.
    + intros x. rewrite C, freq_add_get by auto. cbn [count_occ]. destruct (Nat.eq_dec l x); lia.
Qed.

Lemma argmax_nat_spec l : forall i bi bv pre, length pre = i -> bi < i -> nth bi pre 0 = bv ->
  (forall j, j < i -> nth j pre 0 <= bv /\ (nth j pre 0 = bv -> bi <= j)) ->
  let k := argmax_nat l i bi bv in
  k < length (pre ++ l) /\ forall j, j < length (pre ++ l) -> nth j (pre ++ l) 0 <= nth k (pre ++ l) 0 /\
    (nth j (pre ++ l) 0 = nth k (pre ++ l) 0 -> k <= j).
Proof.
  induction l as [|x l IH]; intros i bi bv pre L Hb Nb M; cbn [argmax_nat].
  - rewrite app_nil_r. rewrite Nb. split; [lia|]. intros j Hj. apply M. lia.
  - replace (pre ++ x :: l) with ((pre ++ [x]) ++ l) by (now rewrite <- app_assoc).
    destruct (Nat.ltb_spec bv x) as [H|H]; apply IH; rewrite ?app_length; cbn [length]; try lia.
    + rewrite app_nth2, L, Nat.sub_diag by lia. reflexivity.
    + intros j Hj. destruct (Nat.eq_dec j i) as [->|].
      * rewrite app_nth2, L, Nat.sub_diag by lia. cbn. lia.
      * rewrite app_nth1 by lia. specialize (M j ltac:(lia)). lia.
    + rewrite app_nth1 by lia. auto.
    + intros j Hj. destruct (Nat.eq_dec j i) as [->|].
      * rewrite app_nth2, L, Nat.sub_diag by lia. cbn. lia.
      * rewrite app_nth1 by lia. apply M. lia.
Qed.

Lemma ksorted_get m i : ksorted m -> i < length m -> get m (nth i (map fst m) 0) = nth i (map snd m) 0.
Proof.
  unfold ksorted, get. revert i. induction m as [|(y, c) m IH]; cbn [map fst length]; intros i S H; [lia|].
  inversion S as [|? ? S' H']; subst. destruct i as [|i]; cbn [nth find fst map snd].
  - now rewrite Nat.eqb_refl.
  - rewrite Forall_forall in H'. assert (y < nth i (map fst m) 0). { apply H'. apply nth_In. rewrite map_length. lia. }
    rewrite (proj2 (Nat.eqb_neq _ _)) by lia. apply IH; auto. lia.
Qed.
Lemma ksorted_lt m i j : ksorted m -> i <= j -> j < length m -> nth i (map fst m) 0 <= nth j (map fst m) 0.
Proof.
  unfold ksorted. intros S. revert i j. induction m as [|(y, c) m IH]; cbn [map fst length] in *; intros i j Hij Hj; [lia|].
  inversion S as [|? ? S' H']; subst. destruct i as [|i], j as [|j]; cbn [nth]; try lia.
  - rewrite Forall_forall in H'. assert (y < nth j (map fst m) 0); [|lia]. apply H'. apply nth_In. rewrite map_length. lia.
  - apply IH; auto; lia.
Qed.

Theorem vote_spec labels : labels <> [] -> exists l, vote labels = Ok l /\ is_vote labels l.
Proof.
  intros NE. destruct (freq_spec_gen labels [] (SSorted_nil _)) as (S & D & C). fold (freq labels) in S, D, C.
  unfold vote. set (fr := freq labels) in *.
  destruct (map snd fr) as [|c counts] eqn:Es.
  - exfalso. apply map_eq_nil in Es. destruct labels as [|l0 ls]; [easy|]. rewrite Es in D. apply (proj2 (D l0)). left; now left.
  - set (k := argmax_nat counts 1 0 c).
    destruct (argmax_nat_spec counts 1 0 c [c] eq_refl ltac:(lia) eq_refl) as (K1 & K2).
    { intros [|j] Hj; [cbn; lia|lia]. }
    fold k in K1, K2. cbn [app] in K1, K2. rewrite <- Es in K1, K2. rewrite map_length in K1, K2.
    assert (Hk : k < length (map fst fr)) by (now rewrite map_length).
    exists (nth k (map fst fr) 0). split; [now apply ridx_nth|].
    assert (G : forall i, i < length fr -> count_occ Nat.eq_dec labels (nth i (map fst fr) 0) = nth i (map snd fr) 0).
    { intros i Hi. rewrite <- ksorted_get by auto. rewrite C. reflexivity. }
    split.
    + assert (In (nth k (map fst fr) 0) (map fst fr)) by (now apply nth_In). apply D in H. destruct H as [H|[]]. exact H.
    + intros l'. rewrite G by auto. destruct (in_dec Nat.eq_dec l' labels) as [Hl|Hl].
      * assert (Q : In l' (map fst fr)) by (apply D; now left). destruct (In_nth _ _ 0 Q) as (j & Hj & <-). rewrite map_length in Hj.
        destruct (K2 j Hj) as (A & B). rewrite G by auto. split; auto. intros _ E. apply ksorted_lt; auto.
      * split; [|easy]. rewrite (proj1 (count_occ_not_In Nat.eq_dec labels l') Hl). lia.
Qed.

(** ** The classifier *)
Section C.
  Context {F : Type} {N : Num F} {S : Type} (s_build : S -> matrix F -> res S)
          (s_search : S -> list F -> nat -> res (list nat * list F)).

  Lemma rmap_pointwise {A B} (f : A -> res B) (Q : A -> B -> Prop) l : (forall a, In a l -> exists b, f a = Ok b /\ Q a b) ->
    exists bs, rmap f l = Ok bs /\ Forall2 Q l bs.
  Proof.
    induction l as [|a l IH]; intros H; cbn; [exists []; auto|].
    destruct (H a (or_introl eq_refl)) as (b & -> & Hb). destruct IH as (bs & -> & Hbs); [intros; apply H; now right|].
    exists (b :: bs). cbn. auto.
  Qed.

  Theorem predict_spec (c : KNNClassifier S) target inputs : knn_target _ c = Some target ->
    (forall row, In row (mrows inputs) -> exists idx ds, s_search (knn_searcher _ c) row (knn_k _ c) = Ok (idx, ds) /\
        idx <> [] /\ (forall i, In i idx -> i < length target)) ->
    exists out, knn_predict s_search c inputs = Ok out /\
      Forall2 (fun row l => exists idx ds, s_search (knn_searcher _ c) row (knn_k _ c) = Ok (idx, ds) /\
                 is_vote (map (fun i => nth i target 0) idx) l) (mrows inputs) out.
  Proof.
    intros T H. unfold knn_predict. rewrite T. apply rmap_pointwise. intros row Hr.
    destruct (H row Hr) as (idx & ds & E & NE & R). rewrite E. cbn [rbind fst]. rewrite (rmap_ridx _ _ 0) by auto. cbn [rbind].
    destruct (vote_spec (map (fun i => nth i target 0) idx)) as (l & El & Vl). { now destruct idx. }
    exists l. split; auto. exists idx, ds. auto.
  Qed.

  Lemma train_rejects (c : KNNClassifier S) inputs targets :
    nrows inputs <> length targets \/ nrows inputs < knn_k _ c -> knn_train s_build c inputs targets = (c, Err InvalidData).
  Proof.
    unfold knn_train. intros [H|H].
    - now rewrite (proj2 (Nat.eqb_neq _ _) H).
    - destruct (nrows inputs =? length targets); cbn [negb]; auto. now rewrite (proj2 (Nat.ltb_lt _ _) H).
  Qed.
  Lemma train_ok (c : KNNClassifier S) inputs targets s : nrows inputs = length targets -> knn_k _ c <= nrows inputs ->
    s_build (knn_searcher _ c) inputs = Ok s ->
    knn_train s_build c inputs targets = ({| knn_k := knn_k _ c; knn_searcher := s; knn_target := Some targets |}, Ok tt).
  Proof.
    intros H1 H2 H3. unfold knn_train. rewrite H1, Nat.eqb_refl. cbn [negb]. rewrite <- H1, (proj2 (Nat.ltb_ge _ _) H2), H3. reflexivity.
  Qed.
End C.
