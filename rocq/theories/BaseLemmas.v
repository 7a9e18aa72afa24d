(** Lemmas about [Base] (no model content). *)
From Coq Require Import List Arith Lia Bool Reals Permutation Lra.
From Verif Require Import Base.
Import ListNotations.

Lemma rbind_Ok_inv {A B} (r : res A) (f : A -> res B) b :
  rbind r f = Ok b -> exists a, r = Ok a /\ f a = Ok b.
Proof. destruct r; simpl; intros H; try discriminate. eauto. Qed.

Lemma upd_None {A} (l : list A) i x : upd l i x = None <-> length l <= i.
Proof.
  revert i; induction l; intros [|i]; simpl; try (split; [intros; lia|reflexivity]).
  - split; [discriminate | intros; lia].
  - specialize (IHl i). destruct (upd l i x).
    + split; [discriminate|]. intros. assert (length l <= i) by lia. apply IHl in H0. discriminate.
    + split; [|reflexivity]. intros _. assert (length l <= i) by (apply IHl; reflexivity). lia.
Qed.

Lemma upd_spec {A} (l1 l2 : list A) a x :
  upd (l1 ++ a :: l2) (length l1) x = Some (l1 ++ x :: l2).
Proof. induction l1; simpl; auto. rewrite IHl1. reflexivity. Qed.

Lemma upd_app_l {A} (l1 l2 : list A) i x l1' :
  upd l1 i x = Some l1' -> upd (l1 ++ l2) i x = Some (l1' ++ l2).
Proof.
  revert i l1'; induction l1; intros [|i] l1' H; simpl in *; try discriminate.
  - inversion H; reflexivity.
  - destruct (upd l1 i x) eqn:E; try discriminate. inversion H; subst.
    erewrite IHl1 by eauto. reflexivity.
Qed.

Lemma upd_app_r {A} (l1 l2 : list A) i x :
  upd (l1 ++ l2) (length l1 + i) x =
  match upd l2 i x with Some l2' => Some (l1 ++ l2') | None => None end.
Proof.
  induction l1; simpl. - destruct (upd l2 i x); reflexivity.
  - rewrite IHl1. destruct (upd l2 i x); reflexivity.
Qed.

Lemma upd_Some {A} (l : list A) i x :
  i < length l -> exists l1 a l2, l = l1 ++ a :: l2 /\ length l1 = i /\ upd l i x = Some (l1 ++ x :: l2).
Proof.
  revert i; induction l; intros i Hi; simpl in Hi; [lia|].
  destruct i.
  - exists [], a, l. simpl. auto.
  - destruct (IHl i) as (l1 & b & l2 & E & Hl & U); [lia|].
    exists (a :: l1), b, l2. simpl. rewrite E, Hl. rewrite <- E, U. auto.
Qed.

Lemma upd_length {A} (l : list A) i x l' : upd l i x = Some l' -> length l' = length l.
Proof.
  intros H. destruct (le_lt_dec (length l) i) as [Hle|Hlt].
  - apply (proj2 (upd_None l i x)) in Hle. congruence.
  - destruct (upd_Some l i x Hlt) as (l1 & a & l2 & E & Hl & U). rewrite H in U. inversion U; subst.
    rewrite !app_length. reflexivity.
Qed.

Lemma upd_nth_error {A} (l : list A) i x l' j :
  upd l i x = Some l' -> nth_error l' j = if Nat.eqb j i then Some x else nth_error l j.
Proof.
  revert i j l'; induction l; intros [|i] j l' H; simpl in H; try discriminate.
  - inversion H; subst. destruct j; reflexivity.
  - destruct (upd l i x) eqn:E; try discriminate. inversion H; subst.
    destruct j; simpl; auto.
Qed.

(** ** Outcomes and expectations *)

Lemma outcome_bind {A B} (p : Rnd A) (f : A -> Rnd B) o :
  outcome (rnd_bind p f) o <->
  (exists a, outcome p (Some a) /\ outcome (f a) o) \/ (o = None /\ outcome p None).
Proof.
  revert o. induction p; intros o; simpl.
  - split.
    + intros H; left; exists a; split; auto; constructor.
    + intros [(b & H & H')|[-> H]]; inversion H; subst; auto.
  - split.
    + intros H'. inversion H' as [|? ? i ? Hi Ho|? |]; subst.
      * apply H in Ho. destruct Ho as [(a & Ha & Hf)|[-> Hn]].
        -- left. exists a. split; auto. econstructor; eauto.
        -- right. split; auto. econstructor; eauto.
      * right; split; auto. constructor.
    + intros [(a & Ha & Hf)|[-> Hn]].
      * inversion Ha; subst. econstructor; eauto. apply H. eauto.
      * inversion Hn; subst.
        -- econstructor; eauto. apply H. right. auto.
        -- constructor.
  - split.
    + intros H; inversion H; subst. right; split; auto; constructor.
    + intros [(a & Ha & Hf)|[-> Hn]]; [inversion Ha| constructor].
Qed.

Lemma sumR_ext n f g : (forall i, i < n -> f i = g i) -> sumR n f = sumR n g.
Proof. induction n; simpl; intros H; auto. rewrite IHn by (intros; apply H; lia). rewrite H by lia. reflexivity. Qed.

Lemma sumR_const n c : sumR n (fun _ => c) = (INR n * c)%R.
Proof. induction n; simpl sumR. simpl; lra. rewrite IHn, S_INR. lra. Qed.

Lemma sumR_scal n c f : sumR n (fun i => (c * f i)%R) = (c * sumR n f)%R.
Proof. induction n; simpl. lra. rewrite IHn; lra. Qed.

Lemma sumR_plus n f g : sumR n (fun i => (f i + g i)%R) = (sumR n f + sumR n g)%R.
Proof. induction n; simpl. lra. rewrite IHn; lra. Qed.

Lemma sumR_zero n f : (forall i, i < n -> f i = 0%R) -> sumR n f = 0%R.
Proof. intros. rewrite (sumR_ext n f (fun _ => 0%R)) by auto. rewrite sumR_const. lra. Qed.

Lemma sumR_single n f j : j < n -> (forall i, i < n -> i <> j -> f i = 0%R) -> sumR n f = f j.
Proof.
  induction n; intros Hj H; [lia|]. simpl.
  destruct (Nat.eq_dec n j) as [->|Hn].
  - rewrite sumR_zero. lra. intros; apply H; lia.
  - rewrite IHn by (try lia; intros; apply H; lia). rewrite (H n) by lia. lra.
Qed.

Lemma sumR_ge0 n f : (forall i, i < n -> (0 <= f i)%R) -> (0 <= sumR n f)%R.
Proof. induction n; simpl; intros H. lra. assert (0 <= sumR n f)%R by (apply IHn; intros; apply H; lia). assert (0 <= f n)%R by (apply H; lia). lra. Qed.

Lemma sumR_le n f g : (forall i, i < n -> (f i <= g i)%R) -> (sumR n f <= sumR n g)%R.
Proof. induction n; simpl; intros H. lra. assert (sumR n f <= sumR n g)%R by (apply IHn; intros; apply H; lia). assert (f n <= g n)%R by (apply H; lia). lra. Qed.

Lemma expect_bind {A B} (p : Rnd A) (f : A -> Rnd B) g :
  expect (rnd_bind p f) g = expect p (fun a => expect (f a) g).
Proof.
  induction p; simpl; auto. f_equal. apply sumR_ext; auto.
Qed.

Lemma expect_ext {A} (p : Rnd A) f g :
  (forall a, outcome p (Some a) -> f a = g a) -> expect p f = expect p g.
Proof.
  induction p; simpl; intros H'; auto.
  - apply H'. constructor.
  - f_equal. apply sumR_ext. intros i Hi. apply H. intros a Ha. apply H'. econstructor; eauto.
Qed.

Lemma expect_scal {A} (p : Rnd A) f c :
  expect p (fun a => (c * f a)%R) = (c * expect p f)%R.
Proof.
  induction p; simpl; try lra.
  rewrite (sumR_ext _ _ (fun i => c * expect (k i) f)%R) by (intros; apply H).
  rewrite sumR_scal. unfold Rdiv. lra.
Qed.

Lemma expect_plus {A} (p : Rnd A) f g :
  expect p (fun a => (f a + g a)%R) = (expect p f + expect p g)%R.
Proof.
  induction p; simpl; try lra.
  rewrite (sumR_ext _ _ (fun i => expect (k i) f + expect (k i) g)%R) by (intros; apply H).
  rewrite sumR_plus. unfold Rdiv. lra.
Qed.

Lemma expect_const {A} (p : Rnd A) c : ~ outcome p None -> expect p (fun _ => c) = c.
Proof.
  induction p; simpl; intros H'; auto.
  - destruct hi.
    + exfalso; apply H'; constructor.
    + rewrite (sumR_ext _ _ (fun _ => c)).
      * rewrite sumR_const. field. apply not_0_INR; lia.
      * intros i Hi. apply H. intros Hn. apply H'. econstructor; eauto.
  - exfalso; apply H'; constructor.
Qed.

Lemma rnd_for_snoc_outcome {S} m start body (s : S) o :
  outcome (rnd_for start (Datatypes.S m) body s) o <->
  (exists s', outcome (rnd_for start m body s) (Some s') /\ outcome (body (start + m) s') o)
  \/ (o = None /\ outcome (rnd_for start m body s) None).
Proof.
  revert start s o; induction m; intros start s o.
  - simpl. rewrite outcome_bind. rewrite Nat.add_0_r. split.
    + intros [(a & Ha & Ho)|[-> Hn]].
      * inversion Ho; subst. left. exists s. split; [constructor|auto].
      * left. exists s; split; [constructor|auto].
    + intros [(s' & Hs & Ho)|[-> Hn]].
      * inversion Hs; subst. destruct o as [a|].
        -- left; exists a; split; auto; constructor.
        -- right; auto.
      * inversion Hn.
  - change (rnd_for start (Datatypes.S (Datatypes.S m)) body s)
      with (rnd_bind (body start s) (fun s' => rnd_for (Datatypes.S start) (Datatypes.S m) body s')).
    rewrite outcome_bind.
    assert (E : forall o', outcome (rnd_for start (Datatypes.S m) body s) o' <->
       (exists a, outcome (body start s) (Some a) /\ outcome (rnd_for (Datatypes.S start) m body a) o')
       \/ (o' = None /\ outcome (body start s) None)).
    { intros o'.
      change (rnd_for start (Datatypes.S m) body s)
        with (rnd_bind (body start s) (fun s' => rnd_for (Datatypes.S start) m body s')).
      apply outcome_bind. }
    replace (start + Datatypes.S m) with (Datatypes.S start + m) by lia.
    split.
    + intros [(a & Ha & Ho)|[-> Hn]].
      * apply IHm in Ho. destruct Ho as [(s' & Hs & Ho)|[-> Hn]].
        -- left. exists s'. split; auto. apply E. left. eauto.
        -- right. split; auto. apply E. left. eauto.
      * right. split; auto. apply E. auto.
    + intros [(s' & Hs & Ho)|[-> Hs]]; apply E in Hs.
      * destruct Hs as [(a & Ha & Hs)|[? ?]]; try discriminate.
        left. exists a. split; auto. apply IHm. left. eauto.
      * destruct Hs as [(a & Ha & Hs)|[_ Hn]].
        -- left. exists a. split; auto. apply IHm. right. auto.
        -- right. auto.
Qed.

Lemma rnd_for_snoc_expect {S} m start body (s : S) f :
  expect (rnd_for start (Datatypes.S m) body s) f =
  expect (rnd_for start m body s) (fun s' => expect (body (start + m) s') f).
Proof.
  revert start s; induction m; intros start s.
  - simpl. rewrite expect_bind. simpl. rewrite Nat.add_0_r. apply expect_ext; auto.
  - change (rnd_for start (Datatypes.S (Datatypes.S m)) body s)
      with (rnd_bind (body start s) (fun s' => rnd_for (Datatypes.S start) (Datatypes.S m) body s')).
    rewrite expect_bind.
    change (rnd_for start (Datatypes.S m) body s)
      with (rnd_bind (body start s) (fun s' => rnd_for (Datatypes.S start) m body s')).
    rewrite expect_bind. apply expect_ext. intros a _. rewrite IHm.
    replace (start + Datatypes.S m) with (Datatypes.S start + m) by lia. reflexivity.
Qed.

(** A loop invariant for [rnd_for]. *)
Lemma rnd_for_invariant {S} (I : nat -> S -> Prop) m start body (s : S) :
  I start s ->
  (forall i s', start <= i < start + m -> I i s' ->
     forall o, outcome (body i s') o -> exists s'', o = Some s'' /\ I (Datatypes.S i) s'') ->
  forall o, outcome (rnd_for start m body s) o -> exists s', o = Some s' /\ I (start + m) s'.
Proof.
  revert start s; induction m; intros start s HI Hstep o Ho; simpl in Ho.
  - inversion Ho; subst. exists s. rewrite Nat.add_0_r. auto.
  - apply outcome_bind in Ho. destruct Ho as [(a & Ha & Ho)|[-> Hn]].
    + destruct (Hstep start s ltac:(lia) HI _ Ha) as (s'' & E & HI'). inversion E; subst.
      destruct (IHm (Datatypes.S start) s'' HI') with (o := o) as (s3 & -> & H3); auto.
      * intros. eapply Hstep; eauto; lia.
      * exists s3. split; auto. replace (start + Datatypes.S m) with (Datatypes.S start + m) by lia. auto.
    + destruct (Hstep start s ltac:(lia) HI _ Hn) as (s'' & E & _). discriminate.
Qed.

(** ** Lists *)
Lemma NoDup_app_l {A} (l1 l2 : list A) : NoDup (l1 ++ l2) -> NoDup l1.
Proof.
  induction l1; simpl; intros H; constructor; inversion H; subst; auto.
  intros Hin. apply H2. apply in_or_app; auto.
Qed.
Lemma NoDup_app_r {A} (l1 l2 : list A) : NoDup (l1 ++ l2) -> NoDup l2.
Proof. induction l1; simpl; intros H; auto. inversion H; auto. Qed.
Lemma NoDup_snoc {A} (l : list A) a : NoDup l -> ~ In a l -> NoDup (l ++ [a]).
Proof.
  intros H Hn. apply (Permutation_NoDup (Permutation_cons_append l a)). constructor; auto.
Qed.
Lemma nth_error_ext' {B} (l1 l2 : list B) : (forall i, nth_error l1 i = nth_error l2 i) -> l1 = l2.
Proof.
  revert l2; induction l1; destruct l2; intros H; auto; try (specialize (H 0); discriminate).
  f_equal; [specialize (H 0); simpl in H; congruence|]. apply IHl1. intros i; apply (H (S i)).
Qed.
Lemma skipn_skipn' {A} (l : list A) a b : skipn a (skipn b l) = skipn (b + a) l.
Proof.
  revert l; induction b; intros l; simpl; auto. destruct l; simpl; [apply skipn_nil|apply IHb].
Qed.
Lemma firstn_skipn_add {A} (l : list A) a b : firstn a l ++ firstn b (skipn a l) = firstn (a + b) l.
Proof.
  revert l; induction a; intros l; simpl; auto. destruct l; simpl; [destruct b; auto|]. rewrite IHa. reflexivity.
Qed.

Lemma sumR_ge_term n f k : (forall i, i < n -> (0 <= f i)%R) -> k < n -> (f k <= sumR n f)%R.
Proof.
  induction n; intros H Hk; [lia|]. cbn [sumR].
  assert (0 <= sumR n f)%R by (apply sumR_ge0; intros; apply H; lia).
  assert (0 <= f n)%R by (apply H; lia).
  destruct (Nat.eq_dec k n) as [->|]; [lra|].
  assert (f k <= sumR n f)%R by (apply IHn; [intros; apply H; lia|lia]). lra.
Qed.
