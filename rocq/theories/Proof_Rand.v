(** Proofs about [Model_Rand]. *)
From Coq Require Import List Arith Lia Bool Reals Permutation Lra.
From Verif Require Import Base BaseLemmas Model_Rand.
Import ListNotations.

Section P.
  Context {A : Type}.

  Lemma swap_front (pre s : list A) j :
    j < length s ->
    exists y r, swap (pre ++ s) (length pre) (length pre + j) = Some (pre ++ y :: r)
      /\ nth_error s j = Some y /\ Permutation s (y :: r) /\ length r + 1 = length s.
  Proof.
    intros Hj. destruct s as [|x s']; [simpl in Hj; lia|].
    unfold swap. rewrite !nth_error_app2 by lia.
    replace (length pre - length pre) with 0 by lia.
    replace (length pre + j - length pre) with j by lia. simpl nth_error at 1.
    destruct j.
    - simpl. exists x, s'. rewrite Nat.add_0_r, upd_spec, upd_spec. repeat split; auto.
      simpl; lia.
    - simpl in Hj. destruct (nth_error s' j) as [y|] eqn:E.
      2:{ apply nth_error_None in E. lia. }
      destruct (nth_error_split _ _ E) as (u & v & -> & Hu). subst j.
      exists y, (u ++ x :: v). simpl. rewrite E. rewrite upd_spec.
      change (pre ++ y :: u ++ y :: v) with (pre ++ (y :: u) ++ y :: v).
      rewrite app_assoc. replace (length pre + S (length u)) with (length (pre ++ y :: u)).
      + rewrite upd_spec. rewrite <- app_assoc. simpl. repeat split; auto.
        * apply (Permutation_trans (l' := x :: y :: u ++ v)).
          -- constructor. symmetry. apply Permutation_middle.
          -- apply (Permutation_trans (l' := y :: x :: u ++ v)); constructor.
             apply Permutation_middle.
        * rewrite !app_length. simpl. lia.
      + rewrite app_length. simpl. lia.
  Qed.

  Lemma in_place_outcome (m : nat) : forall (pre s : list A),
    length s = m ->
    forall o, outcome (rnd_for (length pre) m (in_place_body (length pre + m)) (pre ++ s)) o ->
    exists t, o = Some (pre ++ t) /\ Permutation s t.
  Proof.
    induction m; intros pre s Hs o Ho; simpl in Ho.
    - inversion Ho; subst. exists s. auto.
    - unfold in_place_body in Ho at 1. simpl in Ho.
      replace (length pre + S m - length pre) with (S m) in Ho by lia.
      inversion Ho as [|? ? j ? Hj Ho'| |]; subst. clear Ho.
      destruct (swap_front pre s j) as (y & r & Esw & _ & P & Hr); [lia|].
      rewrite Esw in Ho'. simpl in Ho'.
      change (pre ++ y :: r) with (pre ++ [y] ++ r) in Ho'. rewrite app_assoc in Ho'.
      replace (S (length pre)) with (length (pre ++ [y])) in Ho' by (rewrite app_length; simpl; lia).
      replace (length pre + S m) with (length (pre ++ [y]) + m) in Ho' by (rewrite app_length; simpl; lia).
      destruct (IHm (pre ++ [y]) r ltac:(lia) o Ho') as (t & -> & Pt).
      exists (y :: t). rewrite <- app_assoc. simpl. split; auto.
      rewrite P. constructor. auto.
  Qed.

  Lemma in_place_perm (l : list A) o :
    outcome (in_place_fisher_yates l) o -> exists t, o = Some t /\ Permutation l t.
  Proof.
    intros H. destruct (in_place_outcome (length l) [] l eq_refl o H) as (t & -> & P).
    simpl. eauto.
  Qed.

  Variable eqd : forall x y : A, {x = y} + {x <> y}.
  Definition eql (s t : list A) : bool := if list_eq_dec eqd s t then true else false.

  Lemma expect_zero {B} (p : Rnd B) f :
    (forall b, outcome p (Some b) -> f b = 0%R) -> expect p f = 0%R.
  Proof.
    intros H. rewrite (expect_ext p f (fun _ => 0 * 0)%R).
    - rewrite (expect_scal p (fun _ => 0%R) 0%R). lra.
    - intros. rewrite H; auto. lra.
  Qed.

  Lemma in_place_uniform_gen (m : nat) : forall (pre s t : list A),
    length s = m -> NoDup s -> Permutation s t ->
    expect (rnd_for (length pre) m (in_place_body (length pre + m)) (pre ++ s))
           (fun l => ind (eql l (pre ++ t))) = (/ INR (fact m))%R.
  Proof.
    induction m; intros pre s t Hs ND P.
    - destruct s; [|discriminate]. apply Permutation_nil in P. subst. simpl.
      unfold eql. destruct list_eq_dec; [simpl; lra|congruence].
    - cbn [rnd_for]. rewrite expect_bind. unfold in_place_body at 1. simpl.
      replace (length pre + S m - length pre) with (S m) by lia.
      assert (Hf : forall i, i < S m -> forall f,
        expect (rnd_opt (swap (pre ++ s) (length pre) (length pre + i))) f =
        match nth_error s i with Some y =>
           f (match swap (pre ++ s) (length pre) (length pre + i) with Some l => l | None => [] end)
          | None => 0%R end).
      { intros i Hi f. destruct (swap_front pre s i) as (y & r & Esw & Ey & _); [lia|].
        rewrite Esw, Ey. reflexivity. }
      destruct t as [|y t]. { apply Permutation_sym, Permutation_nil in P. subst; discriminate. }
      assert (Hy : In y s) by (apply (Permutation_in y (Permutation_sym P)); left; auto).
      destruct (In_nth_error _ _ Hy) as (j0 & Hj0).
      assert (Hj0l : j0 < length s) by (apply nth_error_Some; congruence).
      rewrite (sumR_single (S m) _ j0).
      + destruct (swap_front pre s j0 Hj0l) as (y' & r & Esw & Ey & Pr & Hr).
        rewrite Hj0 in Ey. inversion Ey; subst y'. rewrite Esw. simpl.
        change (pre ++ y :: r) with (pre ++ [y] ++ r).
        change (pre ++ y :: t) with (pre ++ [y] ++ t). rewrite !app_assoc.
        replace (S (length pre)) with (length (pre ++ [y])) by (rewrite app_length; simpl; lia).
        replace (length pre + S m) with (length (pre ++ [y]) + m) by (rewrite app_length; simpl; lia).
        rewrite IHm.
        * replace (INR (fact m + m * fact m)) with (INR (S m) * INR (fact m))%R by (rewrite <- mult_INR; reflexivity).
          change (match m with 0 => 1%R | S _ => (INR m + 1)%R end) with (INR (S m)).
          rewrite Rinv_mult. unfold Rdiv. rewrite Rmult_comm. reflexivity.
        * lia.
        * eapply Permutation_NoDup in Pr; eauto. inversion Pr; auto.
        * apply (Permutation_cons_inv (a := y)). rewrite <- Pr. auto.
      + lia.
      + intros i Hi Hne. rewrite Hf by auto.
        destruct (swap_front pre s i ltac:(lia)) as (z & r & Esw & Ez & Pr & Hr).
        rewrite Ez, Esw. apply expect_zero. intros l Hl.
        change (pre ++ z :: r) with (pre ++ [z] ++ r) in Hl. rewrite app_assoc in Hl.
        replace (S (length pre)) with (length (pre ++ [z])) in Hl by (rewrite app_length; simpl; lia).
        replace (length pre + S m) with (length (pre ++ [z]) + m) in Hl by (rewrite app_length; simpl; lia).
        apply in_place_outcome in Hl; [|lia]. destruct Hl as (t' & E & _). inversion E; subst l.
        unfold eql. destruct list_eq_dec as [e|]; auto.
        rewrite <- app_assoc in e. apply app_inv_head in e. simpl in e. inversion e; subst z.
        exfalso. apply Hne. apply (NoDup_nth_error s); auto; try lia. congruence.
  Qed.

  Lemma in_place_uniform (l t : list A) :
    NoDup l -> Permutation l t ->
    expect (in_place_fisher_yates l) (fun r => ind (eql r t)) = (/ INR (fact (length l)))%R.
  Proof. intros ND P. apply (in_place_uniform_gen (length l) [] l t eq_refl ND P). Qed.

  (** ** Inside-out Fisher-Yates *)

  Lemma nth_error_some_map {B C} (f : B -> C) l i :
    nth_error (map f l) i = option_map f (nth_error l i).
  Proof. revert i; induction l; intros [|i]; simpl; auto. Qed.

  (** One step on a buffer whose first [i] cells hold [r]. *)
  Lemma fy_step (arr r : list A) a rest i j :
    i = length r -> nth_error arr i = Some a -> j < i + 1 ->
    exists r', Permutation (a :: r) r' /\ length r' = S (length r) /\ nth_error r' j = Some a /\
      (j = i -> r' = r ++ [a]) /\
      (j <> i -> exists u v x, r = u ++ x :: v /\ length u = j /\ r' = u ++ a :: v ++ [x]) /\
      forall B (k : list (option A) -> Rnd B),
      rnd_bind (if negb (j =? i) then
         let! c := rnd_opt (nth_error (map Some r ++ None :: rest) j) in
         let! x := rnd_opt c in
         rnd_opt (upd (map Some r ++ None :: rest) i (Some x))
       else RRet (map Some r ++ None :: rest))
       (fun sh1 => let! a0 := rnd_opt (nth_error arr i) in
          let! sh2 := rnd_opt (upd sh1 j (Some a0)) in k sh2) = k (map Some r' ++ rest).
  Proof.
    intros Hi Ha Hj. destruct (Nat.eqb_spec j i) as [e|ne]; simpl.
    - subst j. exists (r ++ [a]). repeat split.
      + apply Permutation_cons_append.
      + rewrite app_length; simpl; lia.
      + rewrite nth_error_app2 by lia. replace (i - length r) with 0 by lia. reflexivity.
      + lia.
      + intros B k. rewrite Ha. simpl. subst i.
        replace (length r) with (length (map (@Some A) r)) by apply map_length.
        rewrite upd_spec. simpl. rewrite map_app, <- app_assoc. reflexivity.
    - assert (Hjl : j < length r) by lia.
      destruct (nth_error r j) as [x|] eqn:Ex; [|apply nth_error_None in Ex; lia].
      destruct (nth_error_split _ _ Ex) as (u & v & Er & Hu).
      exists (u ++ a :: v ++ [x]). repeat split.
      + subst r. change (u ++ a :: v ++ [x]) with (u ++ [a] ++ v ++ [x]).
        apply (Permutation_trans (l' := a :: u ++ v ++ [x])).
        * constructor. apply Permutation_app_head. apply Permutation_cons_append.
        * apply Permutation_middle.
      + subst r. rewrite !app_length. simpl. rewrite app_length. simpl. lia.
      + rewrite nth_error_app2 by lia. replace (j - length u) with 0 by lia. reflexivity.
      + intros; lia.
      + intros _. exists u, v, x. auto.
      + intros B k. rewrite nth_error_app1 by (rewrite map_length; lia).
        rewrite nth_error_some_map, Ex. simpl.
        replace i with (length (map (@Some A) r)) by (rewrite map_length; lia).
        rewrite upd_spec. simpl. rewrite map_length, <- Hi, Ha. simpl.
        rewrite Er at 1. rewrite map_app. simpl. rewrite <- app_assoc. simpl.
        replace j with (length (map (@Some A) u)) by (rewrite map_length; lia).
        rewrite upd_spec. simpl. f_equal.
        rewrite !map_app. simpl. rewrite map_app. simpl. rewrite <- !app_assoc. simpl.
        rewrite <- app_assoc. reflexivity.
  Qed.

  Lemma rnd_bind_ret {B} (p : Rnd B) f : (forall b, f b = RRet b) -> forall o, outcome (rnd_bind p f) o <-> outcome p o.
  Proof.
    intros Hf o. rewrite outcome_bind. split.
    - intros [(a & Ha & Ho)|[-> H]]; auto. rewrite Hf in Ho. inversion Ho; subst; auto.
    - intros H. destruct o as [b|]; [left|right; auto]. exists b. rewrite Hf. split; auto. constructor.
  Qed.

  (** Explicit form of the body on a partially filled buffer. *)
  Lemma fy_body_expect (arr r : list A) a rest i f :
    i = length r -> nth_error arr i = Some a ->
    exists st : nat -> list A,
      (forall j, j < i + 1 -> Permutation (a :: r) (st j) /\ length (st j) = S (length r) /\ nth_error (st j) j = Some a /\
      (j = i -> st j = r ++ [a]) /\
      (j <> i -> exists u v x, r = u ++ x :: v /\ length u = j /\ st j = u ++ a :: v ++ [x])) /\
      expect (fisher_yates_body arr i (map Some r ++ None :: rest)) f =
      (sumR (i + 1) (fun j => f (map Some (st j) ++ rest)) / INR (i + 1))%R /\
      (forall o, outcome (fisher_yates_body arr i (map Some r ++ None :: rest)) o <->
        exists j, j < i + 1 /\ o = Some (map Some (st j) ++ rest)).
  Proof.
    intros Hi Ha.
    exists (fun j => if Nat.eqb j i then r ++ [a] else
       match nth_error r j with Some x => firstn j r ++ a :: skipn (S j) r ++ [x] | None => [] end).
    assert (K : forall j, j < i + 1 ->
       let st := (if Nat.eqb j i then r ++ [a] else
       match nth_error r j with Some x => firstn j r ++ a :: skipn (S j) r ++ [x] | None => [] end) in
       (Permutation (a :: r) st /\ length st = S (length r) /\ nth_error st j = Some a /\
      (j = i -> st = r ++ [a]) /\
      (j <> i -> exists u v x, r = u ++ x :: v /\ length u = j /\ st = u ++ a :: v ++ [x])) /\
       forall B (k : list (option A) -> Rnd B),
      rnd_bind (if negb (j =? i) then
         let! c := rnd_opt (nth_error (map Some r ++ None :: rest) j) in
         let! x := rnd_opt c in
         rnd_opt (upd (map Some r ++ None :: rest) i (Some x))
       else RRet (map Some r ++ None :: rest))
       (fun sh1 => let! a0 := rnd_opt (nth_error arr i) in
          let! sh2 := rnd_opt (upd sh1 j (Some a0)) in k sh2) = k (map Some st ++ rest)).
    { intros j Hj. destruct (fy_step arr r a rest i j Hi Ha Hj) as (r' & H1 & H2 & H3 & H4 & H5 & H6).
      assert (Heq : (if Nat.eqb j i then r ++ [a] else
       match nth_error r j with Some x => firstn j r ++ a :: skipn (S j) r ++ [x] | None => [] end) = r').
      { destruct (Nat.eqb_spec j i) as [e|ne].
        - symmetry; auto.
        - destruct (H5 ne) as (u & v & x & -> & Hu & ->). subst j.
          rewrite nth_error_app2, Nat.sub_diag by lia. cbn [nth_error].
          rewrite firstn_app, Nat.sub_diag, firstn_all. cbn [firstn]. rewrite app_nil_r.
          rewrite skipn_app. rewrite skipn_all2 by lia.
          replace (S (length u) - length u) with 1 by lia. reflexivity. }
      cbv zeta. rewrite Heq. split; [|exact H6]. auto. }
    assert (KE : forall j, j < i + 1 -> forall g,
       expect (rnd_bind (if negb (j =? i) then
         let! c := rnd_opt (nth_error (map Some r ++ None :: rest) j) in
         let! x := rnd_opt c in
         rnd_opt (upd (map Some r ++ None :: rest) i (Some x))
       else RRet (map Some r ++ None :: rest))
       (fun sh1 => let! a0 := rnd_opt (nth_error arr i) in rnd_opt (upd sh1 j (Some a0)))) g
       = g (map Some (if Nat.eqb j i then r ++ [a] else
       match nth_error r j with Some x => firstn j r ++ a :: skipn (S j) r ++ [x] | None => [] end) ++ rest)).
    { intros j Hj g. destruct (K j Hj) as (_ & H). specialize (H _ (fun s => RRet s)).
      apply (f_equal (fun p => expect p g)) in H. etransitivity; [|exact H]. clear H. cbv beta.
      rewrite !expect_bind. apply expect_ext. intros sh1 _. rewrite !expect_bind. apply expect_ext.
      intros a0 _. rewrite expect_bind. apply expect_ext. reflexivity. }
    assert (KO : forall j, j < i + 1 -> forall o,
       outcome (rnd_bind (if negb (j =? i) then
         let! c := rnd_opt (nth_error (map Some r ++ None :: rest) j) in
         let! x := rnd_opt c in
         rnd_opt (upd (map Some r ++ None :: rest) i (Some x))
       else RRet (map Some r ++ None :: rest))
       (fun sh1 => let! a0 := rnd_opt (nth_error arr i) in rnd_opt (upd sh1 j (Some a0)))) o
       <-> o = Some (map Some (if Nat.eqb j i then r ++ [a] else
       match nth_error r j with Some x => firstn j r ++ a :: skipn (S j) r ++ [x] | None => [] end) ++ rest)).
    { intros j Hj o. destruct (K j Hj) as (_ & H). specialize (H _ (fun s => RRet s)).
      assert (Ho : outcome (RRet (map Some (if Nat.eqb j i then r ++ [a] else
       match nth_error r j with Some x => firstn j r ++ a :: skipn (S j) r ++ [x] | None => [] end) ++ rest)) o
       <-> o = Some (map Some (if Nat.eqb j i then r ++ [a] else
       match nth_error r j with Some x => firstn j r ++ a :: skipn (S j) r ++ [x] | None => [] end) ++ rest)).
      { split; intros X. inversion X; auto. subst; constructor. }
      rewrite <- Ho, <- H, !outcome_bind.
      split; (intros [(s1 & Hs1 & X)|X]; [left; exists s1; split; [exact Hs1|]|right; exact X]).
      - rewrite outcome_bind in X |- *. destruct X as [(a0 & Ha0 & X)|X]; [left|right; exact X].
        exists a0; split; auto. apply rnd_bind_ret; auto.
      - rewrite outcome_bind in X |- *. destruct X as [(a0 & Ha0 & X)|X]; [left|right; exact X].
        exists a0; split; auto. apply rnd_bind_ret in X; auto. }
    split; [|split].
    - intros j Hj. apply (K j Hj).
    - unfold fisher_yates_body. simpl. f_equal. apply sumR_ext. intros j Hj. apply KE. auto.
    - intros o. unfold fisher_yates_body. simpl. split.
      + intros Ho. inversion Ho as [|? ? j ? Hj Ho'| k Hk |]; subst.
        * apply KO in Ho'; auto. eauto.
        * exfalso. lia.
      + intros (j & Hj & ->). econstructor; eauto. apply KO; auto.
  Qed.

  Lemma fy_loop_outcome (arr : list A) m : m <= length arr ->
    forall o, outcome (rnd_for 0 m (fisher_yates_body arr) (repeat None (length arr))) o ->
    exists r, o = Some (map Some r ++ repeat None (length arr - m)) /\ Permutation (firstn m arr) r.
  Proof.
    induction m; intros Hm o Ho.
    - simpl in Ho. inversion Ho; subst. exists []. simpl. rewrite Nat.sub_0_r. auto.
    - apply rnd_for_snoc_outcome in Ho. destruct Ho as [(s' & Hs & Ho)|[-> Hn]].
      2:{ destruct (IHm ltac:(lia) _ Hn) as (r & E & _); discriminate. }
      destruct (IHm ltac:(lia) _ Hs) as (r & E & P). inversion E; subst s'. clear E.
      replace (length arr - m) with (S (length arr - S m)) in Ho by lia. simpl in Ho.
      destruct (nth_error arr m) as [a|] eqn:Ea; [|apply nth_error_None in Ea; lia].
      assert (Hr : length r = m).
      { apply Permutation_length in P. rewrite firstn_length in P. lia. }
      destruct (fy_body_expect arr r a (repeat None (length arr - S m)) m (fun _ => 0%R) ltac:(lia) Ea)
        as (st & Hst & _ & HO).
      simpl in Ho. apply HO in Ho. destruct Ho as (j & Hj & ->).
      exists (st j). split; auto.
      destruct (Hst j Hj) as (Pj & _). rewrite <- Pj, <- P.
      destruct (nth_error_split _ _ Ea) as (u & v & -> & Hu).
      rewrite !firstn_app. rewrite (@firstn_all2 _ (S m) u), (@firstn_all2 _ m u) by lia.
      replace (S m - length u) with 1 by lia. replace (m - length u) with 0 by lia. simpl.
      rewrite app_nil_r. symmetry. apply Permutation_cons_append.
  Qed.

  Lemma all_init_map (r : list A) : all_init (map Some r) = Some r.
  Proof. induction r; simpl; auto. rewrite IHr. reflexivity. Qed.

  Lemma fisher_yates_perm (l : list A) o :
    outcome (fisher_yates l) o -> exists t, o = Some t /\ Permutation l t.
  Proof.
    intros H. unfold fisher_yates in H. apply outcome_bind in H. destruct H as [(sh & Hs & Ho)|[-> Hn]].
    - apply fy_loop_outcome in Hs; auto. destruct Hs as (r & E & P). inversion E; subst.
      rewrite Nat.sub_diag in Ho. simpl in Ho. rewrite app_nil_r, all_init_map in Ho. simpl in Ho.
      inversion Ho; subst. exists r. rewrite firstn_all in P. auto.
    - apply fy_loop_outcome in Hn; auto. destruct Hn as (r & E & _). discriminate.
  Qed.

  Lemma eql_refl s : eql s s = true.
  Proof. unfold eql. destruct list_eq_dec; congruence. Qed.
  Lemma eql_neq s t : s <> t -> eql s t = false.
  Proof. unfold eql. destruct list_eq_dec; congruence. Qed.

  (** Uniformity after [m] rounds. *)
  Lemma fy_loop_uniform (arr : list A) m : m <= length arr -> NoDup arr ->
    forall t, Permutation (firstn m arr) t ->
    expect (rnd_for 0 m (fisher_yates_body arr) (repeat None (length arr)))
      (fun sh => ind (match all_init (firstn m sh) with Some r => eql r t | None => false end))
    = (/ INR (fact m))%R.
  Proof.
    induction m; intros Hm ND t P.
    - simpl in *. apply Permutation_nil in P. subst. rewrite eql_refl. simpl. lra.
    - rewrite rnd_for_snoc_expect. simpl Nat.add.
      destruct (nth_error arr m) as [a|] eqn:Ea; [|apply nth_error_None in Ea; lia].
      destruct (nth_error_split _ _ Ea) as (u & v & Earr & Hu).
      assert (Hfm : firstn m arr = u).
      { rewrite Earr. rewrite firstn_app. rewrite firstn_all2 by lia. replace (m - length u) with 0 by lia. simpl. apply app_nil_r. }
      assert (HfSm : firstn (S m) arr = u ++ [a]).
      { rewrite Earr. rewrite firstn_app. rewrite firstn_all2 by lia. replace (S m - length u) with 1 by lia. reflexivity. }
      rewrite HfSm in P.
      assert (NDu : NoDup (u ++ [a])).
      { rewrite Earr in ND. change (u ++ a :: v) with (u ++ [a] ++ v) in ND. rewrite app_assoc in ND.
        apply NoDup_app_l in ND. auto. }
      assert (NDt : NoDup t) by (eapply Permutation_NoDup; eauto).
      assert (Hat : In a t) by (eapply Permutation_in; [exact P|apply in_or_app; right; left; auto]).
      destruct (in_split _ _ Hat) as (t1 & t2 & Et).
      assert (Hlt : length t = S m).
      { apply Permutation_length in P. rewrite app_length in P. simpl in P. lia. }
      (* the unique predecessor *)
      assert (Hpre : exists p, Permutation u p /\
         forall r st j, Permutation u r -> j < m + 1 ->
          nth_error st j = Some a -> (j = m -> st = r ++ [a]) ->
          (j <> m -> exists u0 v0 x, r = u0 ++ x :: v0 /\ length u0 = j /\ st = u0 ++ a :: v0 ++ [x]) ->
          (st = t <-> (j = length t1 /\ r = p))).
      { destruct t2 as [|z t2'] eqn:Et2 using rev_ind; [| clear IHt2'].
        - exists t1. split.
          { apply (Permutation_app_inv_r [a]). rewrite P, Et. reflexivity. }
          intros r st j Pr Hj Hst Hjm Hjn.
          assert (Hr : length r = m) by (apply Permutation_length in Pr; lia).
          assert (Ht1 : length t1 = m) by (subst t; rewrite app_length in Hlt; simpl in Hlt; lia).
          split.
          + intros ->. assert (j = m).
            { destruct (Nat.eq_dec j m); auto. destruct (Hjn n) as (u0 & v0 & x & -> & Hu0 & E).
              rewrite Et in E. exfalso.
              change (u0 ++ a :: v0 ++ [x]) with (u0 ++ (a :: v0) ++ [x]) in E.
              rewrite app_assoc in E. apply app_inj_tail in E. destruct E as [E ->].
              rewrite Et in NDt. rewrite E in NDt. rewrite <- app_assoc in NDt. simpl in NDt.
              apply NoDup_remove_2 in NDt. apply NDt. apply in_or_app. right. apply in_or_app. right. left. auto. }
            subst j. split; [lia|]. specialize (Hjm eq_refl). rewrite Et in Hjm. apply app_inj_tail in Hjm. destruct Hjm; auto.
          + intros [-> ->]. rewrite Hjm by lia. auto.
        - exists (t1 ++ z :: t2'). split.
          { apply (Permutation_cons_inv (a := a)). rewrite Permutation_cons_append. rewrite P, Et.
            rewrite <- Permutation_middle. constructor. apply Permutation_app_head.
            symmetry. apply Permutation_cons_append. }
          intros r st j Pr Hj Hst Hjm Hjn.
          assert (Hr : length r = m) by (apply Permutation_length in Pr; lia).
          assert (Ht1 : length t1 < m) by (subst t; rewrite app_length in Hlt; simpl in Hlt; rewrite app_length in Hlt; simpl in Hlt; lia).
          split.
          + intros ->. 
            assert (Hj1 : j = length t1).
            { apply (NoDup_nth_error t); auto.
              - apply nth_error_Some. congruence.
              - rewrite Hst, Et, nth_error_app2, Nat.sub_diag by lia. reflexivity. }
            split; auto. destruct (Hjn ltac:(lia)) as (u0 & v0 & x & -> & Hu0 & E).
            rewrite Et in E.
            assert (t1 = u0 /\ a :: t2' ++ [z] = a :: v0 ++ [x]) as [-> E2].
            { revert E; revert Hj1 Hu0; clear; intros -> H E;
               revert u0 H E; induction t1; intros [|b u0] H E; simpl in *; try discriminate; auto;
               inversion E; subst; destruct (IHt1 u0) as [-> ?]; auto. }
            inversion E2 as [E3]. apply app_inj_tail in E3. destruct E3; subst; auto.
          + intros [-> ->]. destruct (Hjn ltac:(lia)) as (u0 & v0 & x & E & Hu0 & ->).
            rewrite Et.
            assert (t1 = u0 /\ z :: t2' = x :: v0) as [-> E2].
            { revert E Hu0; clear; intros E H. revert u0 H E; induction t1; intros [|b u0] H E; simpl in *; try discriminate; auto.
               inversion E; subst; destruct (IHt1 u0) as [-> ?]; auto. }
            inversion E2; subst; auto. }
      destruct Hpre as (p & Pp & Hchar).
      rewrite (expect_ext _ _ (fun sh => (/ INR (S m)) * ind (match all_init (firstn m sh) with Some r => eql r p | None => false end))%R).
      { rewrite expect_scal. rewrite IHm by (try lia; auto; rewrite Hfm; auto).
        change (fact (S m)) with (S m * fact m). rewrite mult_INR, Rinv_mult. reflexivity. }
      intros sh Hsh. apply fy_loop_outcome in Hsh; [|lia].
      destruct Hsh as (r & E & Pr). inversion E; subst sh. clear E.
      assert (Hr : length r = m).
      { apply Permutation_length in Pr. rewrite firstn_length in Pr. lia. }
      rewrite Hfm in Pr.
      replace (length arr - m) with (S (length arr - S m)) by lia. simpl repeat.
      match goal with |- expect _ ?f = _ =>
      destruct (fy_body_expect arr r a (repeat None (length arr - S m)) m f ltac:(lia) Ea)
        as (st & Hst & HE & _) end.
      rewrite HE. clear HE.
      rewrite (sumR_ext _ _ (fun j => ind (eql (st j) t))).
      2:{ intros j Hj. destruct (Hst j Hj) as (_ & Hl & _).
          replace (firstn (S m) (map Some (st j) ++ repeat None (length arr - S m))) with (map (@Some A) (st j)).
          - rewrite all_init_map. reflexivity.
          - rewrite firstn_app, map_length, Hl, Hr, Nat.sub_diag. simpl firstn at 2. rewrite app_nil_r.
            symmetry. apply firstn_all2. rewrite map_length. lia. }
      replace (firstn m (map Some r ++ None :: repeat None (length arr - S m))) with (map (@Some A) r).
      2:{ rewrite firstn_app, map_length, Hr, Nat.sub_diag. simpl firstn at 2. rewrite app_nil_r.
            symmetry. apply firstn_all2. rewrite map_length. lia. }
      rewrite all_init_map.
      assert (Ht1 : length t1 < m + 1) by (rewrite Et, app_length in Hlt; simpl in Hlt; lia).
      rewrite (sumR_single _ _ (length t1)); auto.
      + destruct (Hst _ Ht1) as (_ & _ & H3 & H4 & H5).
        pose proof (Hchar r (st (length t1)) _ Pr Ht1 H3 H4 H5) as HH.
        replace (m + 1) with (S m) by lia.
        destruct (list_eq_dec eqd r p) as [e|ne].
        * assert (Est : st (length t1) = t) by (apply HH; auto). rewrite Est, e, !eql_refl. unfold ind, Rdiv. lra.
        * rewrite (eql_neq r p ne). rewrite (eql_neq (st (length t1)) t). simpl. unfold Rdiv. lra.
          intros E. apply HH in E. tauto.
      + intros j Hj Hne. destruct (Hst _ Hj) as (_ & _ & H3 & H4 & H5).
        pose proof (Hchar r (st j) _ Pr Hj H3 H4 H5) as HH. rewrite eql_neq; auto.
        intros E. apply HH in E. tauto.
  Qed.

  Lemma fisher_yates_uniform (l t : list A) :
    NoDup l -> Permutation l t ->
    expect (fisher_yates l) (fun r => ind (eql r t)) = (/ INR (fact (length l)))%R.
  Proof.
    intros ND P. unfold fisher_yates. rewrite expect_bind.
    rewrite <- (fy_loop_uniform l (length l) (le_n _) ND t) by (rewrite firstn_all; auto).
    apply expect_ext. intros sh Hs. apply fy_loop_outcome in Hs; auto. destruct Hs as (r & E & P').
    inversion E; subst. rewrite Nat.sub_diag. simpl. rewrite app_nil_r, all_init_map. simpl.
    assert (Hr : firstn (length l) (map Some r) = map (@Some A) r).
    { apply firstn_all2. rewrite map_length. apply Permutation_length in P'. rewrite firstn_all in P'. lia. }
    rewrite Hr, all_init_map. reflexivity.
  Qed.

  (** ** Reservoir sampling *)

  Lemma upd_perm (l : list A) r x l' :
    upd l r x = Some l' -> exists y l0, Permutation l (y :: l0) /\ Permutation l' (x :: l0) /\ nth_error l r = Some y.
  Proof.
    intros H. assert (Hr : r < length l).
    { destruct (le_lt_dec (length l) r); auto. apply (proj2 (upd_None l r x)) in l0. congruence. }
    destruct (upd_Some l r x Hr) as (l1 & y & l2 & -> & Hl & U). rewrite H in U. inversion U; subst.
    exists y, (l1 ++ l2). split; [|split].
    - symmetry. apply Permutation_middle.
    - symmetry. apply Permutation_middle.
    - rewrite nth_error_app2, Nat.sub_diag by lia. reflexivity.
  Qed.

  Lemma reservoir_outcome k : forall pool (seen : list A) res ele,
    ele = length seen -> k <= ele -> length res = k ->
    (exists rest, Permutation seen (res ++ rest)) ->
    forall o, outcome (reservoir_loop k ele pool res) o ->
    exists r rest, o = Some r /\ length r = k /\ Permutation (seen ++ pool) (r ++ rest).
  Proof.
    induction pool as [|p0 pool IH]; intros seen res ele He Hk Hres (rest & P) o Ho; simpl in Ho.
    - inversion Ho; subst. exists res, rest. rewrite app_nil_r. auto.
    - unfold reservoir_round in Ho. simpl in Ho.
      inversion Ho as [|? ? r ? Hr Ho'| |]; subst. clear Ho.
      change (p0 :: pool) with ([p0] ++ pool). rewrite app_assoc.
      destruct (Nat.ltb_spec r (length res)) as [Hlt|Hge].
      + destruct (upd res r p0) as [res'|] eqn:U.
        2:{ apply upd_None in U. lia. }
        simpl in Ho'. destruct (upd_perm _ _ _ _ U) as (y & l0 & P1 & P2 & _).
        eapply (IH (seen ++ [p0]) res' (S (length seen))); eauto.
        * rewrite app_length. simpl. lia.
        * apply upd_length in U. lia.
        * exists (y :: rest). rewrite P, P2, P1.
          etransitivity; [symmetry; apply Permutation_cons_append|]. simpl. constructor. apply Permutation_middle.
      + simpl in Ho'. eapply (IH (seen ++ [p0]) res (S (length seen))); eauto.
        * rewrite app_length. simpl. lia.
        * exists (rest ++ [p0]). rewrite P, app_assoc. reflexivity.
  Qed.

  Lemma reservoir_sample_outcome (pool : list A) k o :
    outcome (reservoir_sample pool k) o ->
    (length pool < k /\ o = None) \/
    (k <= length pool /\ exists r rest, o = Some r /\ length r = k /\ Permutation pool (r ++ rest)).
  Proof.
    unfold reservoir_sample. destruct (Nat.leb_spec k (length pool)) as [Hle|Hlt]; intros Ho.
    - right. split; auto.
      destruct (reservoir_outcome k (skipn k pool) (firstn k pool) (firstn k pool) k) with (o := o)
        as (r & rest & E & Hl & P); auto.
      + rewrite firstn_length. lia.
      + rewrite firstn_length. lia.
      + exists []. rewrite app_nil_r. auto.
      + exists r, rest. rewrite firstn_skipn in P. auto.
    - left. inversion Ho; subst. auto.
  Qed.

  Definition memb (x : A) (l : list A) : bool := if in_dec eqd x l then true else false.

  Lemma memb_true x l : In x l -> memb x l = true.
  Proof. unfold memb. destruct in_dec; tauto. Qed.
  Lemma memb_false x l : ~ In x l -> memb x l = false.
  Proof. unfold memb. destruct in_dec; tauto. Qed.

  (** If [x] is in the reservoir it survives a round with probability [ele/(ele+1)]; the new
      element enters with probability [k/(ele+1)]. *)
  Lemma reservoir_round_expect k ele p0 res x :
    NoDup res -> length res = k -> k <= ele -> ~ In p0 res ->
    expect (reservoir_round k (S ele) p0 res) (fun r => ind (memb x r)) =
    (if eqd x p0 then INR k / INR (S ele)
     else ind (memb x res) * (INR ele / INR (S ele)))%R.
  Proof.
    intros ND Hl Hk Hp. unfold reservoir_round, gen_range. cbn [rnd_bind expect].
    assert (Hbody : forall i, i < S ele ->
      expect (if i <? k then rnd_opt (upd res i p0) else RRet res) (fun r => ind (memb x r)) =
      if i <? k then (if eqd x p0 then 1 else if memb x res then
                        (if Nat.eqb i (match find (fun j => match nth_error res j with Some y => if eqd x y then true else false | None => false end) (seq 0 k) with Some j => j | None => k end) then 0 else 1) else 0)%R
      else ind (memb x res)).
    { intros i Hi. destruct (Nat.ltb_spec i k) as [Hik|Hik]; [|reflexivity].
      destruct (upd_Some res i p0 ltac:(lia)) as (l1 & y & l2 & E & Hl1 & U). rewrite U. simpl.
      destruct (eqd x p0) as [->|Hne].
      - rewrite memb_true; auto. apply in_or_app; right; left; auto.
      - destruct (in_dec eqd x res) as [Hin|Hnin].
        + rewrite (memb_true x res) by auto.
          destruct (In_nth_error _ _ Hin) as (j0 & Hj0).
          assert (Hj0l : j0 < length res) by (apply nth_error_Some; congruence).
          match goal with |- context [find ?f ?l] => destruct (find f l) as [j|] eqn:F end.
          * apply find_some in F. destruct F as [_ F]. destruct (nth_error res j) as [z|] eqn:Ez; try discriminate.
            destruct (eqd x z); try discriminate. subst z.
            assert (j = j0) by (apply (NoDup_nth_error res); auto; [apply nth_error_Some; congruence|congruence]). subst j0.
            destruct (Nat.eqb_spec i j) as [->|Hij].
            -- rewrite memb_false; auto. rewrite E in Ez, ND. rewrite nth_error_app2 in Ez by lia.
               replace (j - length l1) with 0 in Ez by lia. simpl in Ez. inversion Ez; subst y.
               apply NoDup_remove_2 in ND. intros H. apply ND. apply in_app_or in H.
               apply in_or_app. destruct H as [H|[H|H]]; auto. congruence.
            -- rewrite memb_true; auto. rewrite E in Hin, Ez. apply in_or_app.
               apply in_app_or in Hin. destruct Hin as [H|[H|H]]; auto; [|right; right; auto].
               subst y. exfalso. apply Hij. rewrite <- Hl1.
               apply (NoDup_nth_error res); auto; [rewrite E, app_length; simpl; lia|].
               rewrite E, Ez. rewrite nth_error_app2, Nat.sub_diag by lia. reflexivity.
          * exfalso. eapply find_none in F. 2:{ apply in_seq. split; [apply Nat.le_0_l|]. simpl. rewrite <- Hl. exact Hj0l. }
            simpl in F. rewrite Hj0 in F. destruct (eqd x x); congruence.
        + rewrite (memb_false x res) by auto. rewrite memb_false; auto.
          intros H. apply in_app_or in H. apply Hnin. rewrite E. apply in_or_app.
          destruct H as [H|[H|H]]; auto; [congruence|right; right; auto]. }
    rewrite (sumR_ext _ _ _ Hbody). clear Hbody.
    assert (Hsplit : forall n (c : nat -> R) (d : R), k <= n ->
      sumR n (fun i => if i <? k then c i else d) = (sumR k c + INR (n - k) * d)%R).
    { intros n c d Hn. replace n with (k + (n - k)) at 1 by lia.
      induction (n - k) as [|q IHq].
      - rewrite Nat.add_0_r. simpl. rewrite Rmult_0_l, Rplus_0_r. apply sumR_ext. intros i Hi.
        destruct (Nat.ltb_spec i k); [auto|lia].
      - rewrite Nat.add_succ_r. cbn [sumR]. rewrite IHq, S_INR.
        destruct (Nat.ltb_spec (k + q) k); [lia|]. lra. }
    rewrite Hsplit by lia. 
    assert (HS : INR (S ele) <> 0%R) by (apply not_0_INR; lia).
    destruct (eqd x p0) as [->|Hne].
    - rewrite sumR_const. rewrite memb_false by auto. simpl ind. unfold Rdiv. rewrite Rmult_1_r, Rmult_0_r, Rplus_0_r. reflexivity.
    - destruct (in_dec eqd x res) as [Hin|Hnin].
      + rewrite (memb_true x res) by auto. simpl ind.
        destruct (In_nth_error _ _ Hin) as (j0 & Hj0).
        assert (Hj0l : j0 < length res) by (apply nth_error_Some; congruence).
        match goal with |- context [find ?f ?l] => destruct (find f l) as [j|] eqn:F end.
        * apply find_some in F. destruct F as [Fin _]. apply in_seq in Fin.
          rewrite (sumR_ext k _ (fun i => 1 + (if Nat.eqb i j then -1 else 0))%R).
          2:{ intros i Hi. destruct (Nat.eqb i j); lra. }
          rewrite sumR_plus, sumR_const.
          rewrite (sumR_single k _ j); [|lia|intros i _ Hi; destruct (Nat.eqb_spec i j); [congruence|auto]].
          rewrite Nat.eqb_refl. rewrite minus_INR, S_INR by lia. field. rewrite <- S_INR. auto.
        * exfalso. eapply find_none in F. 2:{ apply in_seq. split; [apply Nat.le_0_l|]. simpl. rewrite <- Hl. exact Hj0l. }
            simpl in F. rewrite Hj0 in F. destruct (eqd x x); congruence.
      + rewrite memb_false by auto. simpl ind. rewrite sumR_const. unfold Rdiv. lra.
  Qed.

  Lemma reservoir_loop_expect k : 0 < k -> forall pool (seen res : list A) ele x,
    ele = length seen -> k <= ele -> length res = k -> NoDup (seen ++ pool) ->
    (exists rest, Permutation seen (res ++ rest)) ->
    expect (reservoir_loop k ele pool res) (fun r => ind (memb x r)) =
    (if in_dec eqd x pool then INR k / INR (ele + length pool)
     else ind (memb x res) * (INR ele / INR (ele + length pool)))%R.
  Proof.
    intros Hk0. induction pool as [|p0 pool IH]; intros seen res ele x He Hk Hres ND (rest & P).
    - simpl. rewrite Nat.add_0_r. field. apply not_0_INR. lia.
    - cbn [reservoir_loop]. rewrite expect_bind.
      assert (NDs : NoDup (res ++ rest)) by (eapply Permutation_NoDup; [exact P|]; eapply NoDup_app_l; eauto).
      assert (NDr : NoDup res) by (eapply NoDup_app_l; eauto).
      assert (Hp0 : ~ In p0 seen).
      { apply NoDup_remove_2 in ND. intros H; apply ND. apply in_or_app; auto. }
      assert (Hp0r : ~ In p0 res).
      { intros H. apply Hp0. rewrite P. apply in_or_app; auto. }
      assert (ND' : NoDup ((seen ++ [p0]) ++ pool)) by (rewrite <- app_assoc; exact ND).
      rewrite (expect_ext _ _ (fun res' => if in_dec eqd x pool then (INR k / INR (S ele + length pool))%R
            else ((INR (S ele) / INR (S ele + length pool)) * ind (memb x res'))%R)).
      2:{ intros res' Ho.
          rewrite (IH (seen ++ [p0])); auto; try lia.
          - destruct in_dec; auto. lra.
          - rewrite app_length; simpl; lia.
          - unfold reservoir_round in Ho. simpl in Ho. inversion Ho as [|? ? r ? Hr Ho'| |]; subst.
            destruct (Nat.ltb_spec r (length res)) as [Hlt|Hge].
            + destruct (upd res r p0) as [res''|] eqn:U; inversion Ho'; subst. eapply upd_length; eauto.
            + inversion Ho'; auto.
          - unfold reservoir_round in Ho. simpl in Ho. inversion Ho as [|? ? r ? Hr Ho'| |]; subst.
            destruct (Nat.ltb_spec r (length res)) as [Hlt|Hge].
            + destruct (upd res r p0) as [res''|] eqn:U; inversion Ho'; subst.
              destruct (upd_perm _ _ _ _ U) as (y & l0 & P1 & P2 & _).
              exists (y :: rest). rewrite P, P2, P1.
              etransitivity; [symmetry; apply Permutation_cons_append|]. simpl. constructor. apply Permutation_middle.
            + inversion Ho'; subst. exists (rest ++ [p0]). rewrite P, app_assoc. reflexivity. }
      replace (ele + length (p0 :: pool)) with (S ele + length pool) by (simpl; lia).
      assert (HS : INR (S ele) <> 0%R) by (apply not_0_INR; lia).
      assert (HS2 : INR (S ele + length pool) <> 0%R) by (apply not_0_INR; lia).
      destruct (in_dec eqd x pool) as [Hin|Hnin].
      + rewrite expect_const.
        * destruct in_dec as [|n]; auto. exfalso; apply n; right; auto.
        * intros Ho. unfold reservoir_round in Ho. simpl in Ho. inversion Ho as [|? ? r ? Hr Ho'| |]; subst.
          destruct (Nat.ltb_spec r (length res)) as [Hlt|Hge]; [|inversion Ho'].
          destruct (upd res r p0) eqn:U; [inversion Ho'|]. apply upd_None in U. lia.
      + rewrite expect_scal, reservoir_round_expect by auto.
        destruct (eqd x p0) as [->|Hne].
        * destruct (in_dec eqd p0 (p0 :: pool)) as [|n]; [field; auto|exfalso; apply n; left; auto].
        * destruct (in_dec eqd x (p0 :: pool)) as [[?|?]|n]; try congruence; try tauto.
          field. auto.
  Qed.

  Lemma reservoir_sample_uniform (pool : list A) k x :
    NoDup pool -> 0 < k <= length pool -> In x pool ->
    expect (reservoir_sample pool k) (fun r => ind (memb x r)) = (INR k / INR (length pool))%R.
  Proof.
    intros ND [Hk0 Hk] Hx. unfold reservoir_sample.
    destruct (Nat.leb_spec k (length pool)) as [_|?]; [|lia].
    assert (Hfl : length (firstn k pool) = k) by (rewrite firstn_length; lia).
    rewrite (reservoir_loop_expect k Hk0 (skipn k pool) (firstn k pool)); auto; try lia.
    - rewrite skipn_length. replace (k + (length pool - k)) with (length pool) by lia.
      destruct in_dec as [|Hn]; auto.
      rewrite <- (firstn_skipn k pool) in Hx. apply in_app_or in Hx. destruct Hx as [Hx|Hx]; [|tauto].
      rewrite memb_true by auto. simpl. lra.
    - rewrite firstn_skipn. auto.
    - exists []. rewrite app_nil_r. auto.
  Qed.
End P.
