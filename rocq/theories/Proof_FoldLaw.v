(** The splits of cross validation as random quantities, and pooled scores. *)
From Coq Require Import List Arith Lia Bool Permutation Reals Lra.
From Verif Require Import Base BaseLemmas Num Model_Rand Proof_Rand Model_CrossVal Spec_CrossVal Proof_CrossVal Model_Score Spec_Score Spec_FoldLaw Proof_KMeans.
Import ListNotations.

(** ** Laws on finite sets *)
Fixpoint support {A} (p : Rnd A) (fuel : unit) : list A :=
  match p with RRet a => [a] | RGen hi k => flat_map (fun i => support (k i) fuel) (seq 0 hi) | RPanic => [] end.
Lemma support_in {A} (p : Rnd A) a : outcome p (Some a) -> In a (support p tt).
Proof.
  intros H. remember (Some a) as o eqn:E. revert a E. induction H as [b|hi k i o Hi H IH|k|]; intros a E; try discriminate.
  - injection E as ->. now left.
  - cbn [support]. apply in_flat_map. exists i. split; [apply in_seq; lia|]. now apply IH.
Qed.
Fixpoint lsum {A} (l : list A) (f : A -> R) : R := match l with [] => 0%R | a :: l' => (f a + lsum l' f)%R end.
Lemma expect_lsum {A B} (p : Rnd A) (l : list B) (f : B -> A -> R) : expect p (fun a => lsum l (fun b => f b a)) = lsum l (fun b => expect p (f b)).
Proof.
  induction l as [|b l IH]; cbn [lsum].
  - rewrite (expect_ext p _ (fun _ => 0 * 0)%R) by (intros; lra). rewrite (expect_scal p (fun _ => 0%R) 0%R). lra.
  - now rewrite expect_plus, IH.
Qed.
Lemma lsum_ext {A} (l : list A) f g : (forall a, In a l -> f a = g a) -> lsum l f = lsum l g.
Proof. induction l as [|a l IH]; intros H; cbn [lsum]; [reflexivity|]. rewrite H by now left. f_equal. apply IH. intros; apply H; now right. Qed.
Lemma lsum_zero {A} (l : list A) f : (forall a, In a l -> f a = 0%R) -> lsum l f = 0%R.
Proof. induction l as [|a l IH]; intros H; cbn [lsum]; [reflexivity|]. rewrite H by now left. rewrite IH; [lra|]. intros; apply H; now right. Qed.
Lemma lsum_single {A} (eqd : forall x y : A, {x = y} + {x <> y}) (l : list A) (a : A) (f : A -> R) : NoDup l -> In a l ->
  lsum l (fun b => ind (if eqd a b then true else false) * f b)%R = f a.
Proof.
  intros ND H. induction l as [|b l IH]; [destruct H|]. inversion ND; subst. cbn [lsum]. destruct (eqd a b) as [->|Ne].
  - rewrite lsum_zero; [cbn; lra|]. intros c Hc. destruct (eqd b c) as [->|]; [contradiction|]. cbn. lra.
  - destruct H as [->|H]; [congruence|]. rewrite IH by auto. cbn. lra.
Qed.
(** Two programs with the same probabilities of results have the same expectations. *)
Lemma same_law {A} (eqd : forall x y : A, {x = y} + {x <> y}) (p p' : Rnd A) :
  (forall a, prob p (fun b => if eqd b a then true else false) = prob p' (fun b => if eqd b a then true else false)) ->
  forall f, expect p f = expect p' f.
Proof.
  intros H f. set (S := nodup eqd (support p tt ++ support p' tt)).
  assert (K : forall q, (forall a, outcome q (Some a) -> In a S) ->
    expect q f = lsum S (fun b => f b * prob q (fun a => if eqd a b then true else false))%R).
  { intros q Hq. rewrite (expect_ext q f (fun a => lsum S (fun b => ind (if eqd a b then true else false) * f b)%R)).
    - rewrite (expect_lsum q S (fun b a => ind (if eqd a b then true else false) * f b)%R). apply lsum_ext. intros b _.
      unfold prob. rewrite <- expect_scal. apply expect_ext. intros; lra.
    - intros a Ha. symmetry. apply lsum_single; [apply NoDup_nodup|]. now apply Hq. }
  rewrite (K p), (K p').
  - apply lsum_ext. intros a _. now rewrite H.
  - intros a Ha. apply nodup_In, in_app_iff. right. now apply support_in.
  - intros a Ha. apply nodup_In, in_app_iff. left. now apply support_in.
Qed.

(** ** Shuffling does not look at the values *)
Lemma upd_map {A B} (h : A -> B) l i x : upd (map h l) i (h x) = option_map (map h) (upd l i x).
Proof.
  revert i. induction l as [|a l IH]; intros [|i]; cbn; auto. rewrite IH. destruct (upd l i x); reflexivity.
Qed.
Lemma swap_map {A B} (h : A -> B) l i j : swap (map h l) i j = option_map (map h) (swap l i j).
Proof.
  unfold swap. rewrite !nth_error_map. destruct (nth_error l i) as [x|]; cbn; auto. destruct (nth_error l j) as [y|]; cbn; auto.
  rewrite upd_map. destruct (upd l i y) as [l'|]; cbn; auto. now rewrite upd_map.
Qed.
Lemma shuffle_map {A B} (h : A -> B) (l : list A) f : expect (in_place_fisher_yates (map h l)) f = expect (in_place_fisher_yates l) (fun t => f (map h t)).
Proof.
  assert (K : forall n m s (l : list A), expect (rnd_for s m (in_place_body n) (map h l)) f = expect (rnd_for s m (in_place_body n) l) (fun t => f (map h t))).
  { intros n. induction m as [|m IH]; intros s l'; [reflexivity|]. cbn [rnd_for]. rewrite !expect_bind. unfold in_place_body at 1 3.
    rewrite !expect_bind. cbn [gen_range expect]. f_equal. apply sumR_ext. intros j Hj. rewrite swap_map.
    match goal with |- context [option_map _ ?o] => destruct o end; cbn [option_map rnd_opt expect]; auto. }
  unfold in_place_fisher_yates. rewrite map_length. apply K.
Qed.

Definition leqb (a b : list nat) : bool := if list_eq_dec Nat.eq_dec a b then true else false.
Lemma in_place_other (l t : list nat) : ~ Permutation l t -> prob (in_place_fisher_yates l) (fun b => if list_eq_dec Nat.eq_dec b t then true else false) = 0%R.
Proof.
  intros H. unfold prob. rewrite (expect_ext _ _ (fun _ => 0 * 0)%R).
  - rewrite (expect_scal _ (fun _ => 0%R) 0%R). lra.
  - intros b Hb. apply in_place_perm in Hb. destruct Hb as (t' & E & P). injection E as <-.
    destruct (list_eq_dec Nat.eq_dec b t) as [->|]; [contradiction|]. cbn. lra.
Qed.
Lemma perm_dec_nat (l t : list nat) : Permutation l t \/ ~ Permutation l t.
Proof.
  revert t. induction l as [|a l IH]; intros t.
  - destruct t as [|b t]; [left; constructor|right]. intros P. now apply Permutation_nil in P.
  - destruct (in_dec Nat.eq_dec a t) as [Hin|Hno].
    + apply in_split in Hin. destruct Hin as (t1 & t2 & ->). destruct (IH (t1 ++ t2)) as [P|N].
      * left. now apply Permutation_cons_app.
      * right. intros P. apply N. now apply Permutation_cons_app_inv in P.
    + right. intros P. apply Hno. eapply Permutation_in; [exact P|now left].
Qed.
Lemma shuffle_prob (l t : list nat) : NoDup l -> Permutation l t ->
  prob (in_place_fisher_yates l) (fun b => if list_eq_dec Nat.eq_dec b t then true else false) = (/ INR (fact (length l)))%R.
Proof. intros ND P. unfold prob. exact (in_place_uniform Nat.eq_dec l t ND P). Qed.
Lemma shuffle_sym (l l' : list nat) f : NoDup l -> Permutation l l' -> expect (in_place_fisher_yates l) f = expect (in_place_fisher_yates l') f.
Proof.
  intros ND P. apply (same_law (list_eq_dec Nat.eq_dec)). intros t. destruct (perm_dec_nat l t) as [Q|Q].
  - rewrite (shuffle_prob l t ND Q), (shuffle_prob l' t).
    + now rewrite (Permutation_length P).
    + now apply (Permutation_NoDup P).
    + rewrite <- P. exact Q.
  - rewrite (in_place_other l t Q), (in_place_other l' t); [reflexivity|]. intros Q'. apply Q. now rewrite P.
Qed.

(** ** The splits *)
Section Splits.
  Variables n k : nat.
  Hypothesis Hk : 1 < k <= n.

  Lemma random_folds_expect f : expect (random_folds n k) f =
    expect (in_place_fisher_yates (seq 0 n)) (fun idx => f (map (fun i => (train_of idx k i, test_of idx k i)) (seq 0 k))).
  Proof.
    unfold random_folds. rewrite expect_bind. apply expect_ext. intros idx Hi. apply in_place_perm in Hi.
    destruct Hi as (t & E & P). injection E as <-. rewrite folds_eq; [reflexivity|lia|].
    rewrite <- (Permutation_length P), seq_length. lia.
  Qed.
  Lemma start_len idx idx' c : length idx = length idx' -> start idx k c = start idx' k c.
  Proof. intros E. unfold start. now rewrite E. Qed.
  Lemma size_len idx c : length idx = n -> size idx k c = fold_size n k c.
  Proof. intros E. unfold size, fold_size. rewrite E. destruct (Nat.leb_spec (n mod k) c), (Nat.ltb_spec c (n mod k)); lia. Qed.

  Lemma nth_split idx i : i < k -> nth_error (map (fun i => (train_of idx k i, test_of idx k i)) (seq 0 k)) i = Some (train_of idx k i, test_of idx k i).
  Proof.
    intros Hi. rewrite nth_error_map, (nth_error_nth' _ 0) by (rewrite seq_length; lia). now rewrite seq_nth by lia.
  Qed.

  Lemma split_law i tr te : i < k -> Permutation (tr ++ te) (seq 0 n) -> length te = fold_size n k i ->
    prob (random_folds n k) (split_is i tr te) = (/ INR (fact n))%R.
  Proof.
    intros Hi P Hte. unfold prob. rewrite random_folds_expect.
    set (s := start (seq 0 n) k i). set (t := firstn s tr ++ te ++ skipn s tr).
    assert (Pt : Permutation (seq 0 n) t).
    { unfold t. rewrite <- P. rewrite <- (firstn_skipn s tr) at 1. rewrite <- app_assoc. apply Permutation_app_head, Permutation_app_comm. }
    assert (Ls : s + length te <= n).
    { unfold s. rewrite Hte. rewrite <- (size_len (seq 0 n)) by apply seq_length. rewrite <- start_S by (rewrite ?seq_length; lia).
      etransitivity; [apply (start_mono (seq 0 n) k) with (d := k); rewrite ?seq_length; lia|]. rewrite start_k by (rewrite ?seq_length; lia). rewrite seq_length. lia. }
    assert (Ltr : length tr + length te = n) by (rewrite <- app_length, (Permutation_length P); apply seq_length).
    transitivity (prob (in_place_fisher_yates (seq 0 n)) (fun b => if list_eq_dec Nat.eq_dec b t then true else false)).
    - unfold prob. apply expect_ext. intros idx Hx. apply in_place_perm in Hx. destruct Hx as (t' & E & Q). injection E as <-.
      assert (Lx : length idx = n) by (rewrite <- (Permutation_length Q); apply seq_length).
      unfold split_is. rewrite nth_split by exact Hi. f_equal.
      assert (Es : start idx k i = s) by (apply start_len; now rewrite seq_length).
      assert (ES : start idx k (S i) = s + length te) by (rewrite start_S, Es, (size_len idx i Lx) by lia; lia).
      assert (Ez : size idx k i = length te) by (rewrite (size_len idx i Lx); auto).
      destruct (list_eq_dec Nat.eq_dec idx t) as [->|Ne].
      + assert (E1 : train_of t k i = tr).
        { unfold train_of. rewrite Es, ES. unfold t. rewrite firstn_app, firstn_firstn, Nat.min_id, firstn_length, Nat.min_l by lia.
          rewrite Nat.sub_diag. cbn [firstn]. rewrite app_nil_r. rewrite app_assoc, skipn_app, app_length, firstn_length, Nat.min_l by lia.
          rewrite Nat.sub_diag. cbn [skipn]. rewrite skipn_all2 by (rewrite app_length, firstn_length; lia). cbn [app]. apply firstn_skipn. }
        assert (E2 : test_of t k i = te).
        { unfold test_of. rewrite Es, Ez. unfold t. rewrite skipn_app, firstn_length, Nat.min_l by lia. rewrite Nat.sub_diag. cbn [skipn].
          rewrite skipn_all2 by (rewrite firstn_length; lia). cbn [app]. rewrite firstn_app, Nat.sub_diag. cbn [firstn]. rewrite app_nil_r. apply firstn_all. }
        rewrite E1, E2. destruct (list_eq_dec Nat.eq_dec tr tr); [|congruence]. destruct (list_eq_dec Nat.eq_dec te te); congruence.
      + destruct (list_eq_dec Nat.eq_dec (train_of idx k i) tr) as [E1|]; [|reflexivity].
        destruct (list_eq_dec Nat.eq_dec (test_of idx k i) te) as [E2|]; [|reflexivity].
        exfalso. apply Ne. unfold t. rewrite <- E1. rewrite <- E2 at 1. unfold train_of, test_of. rewrite Es, ES, Ez.
        rewrite firstn_app, firstn_firstn, Nat.min_id, firstn_length, Nat.min_l by lia. rewrite Nat.sub_diag. cbn [firstn]. rewrite app_nil_r.
        rewrite skipn_app, firstn_length, Nat.min_l by lia. rewrite Nat.sub_diag. cbn [skipn]. rewrite (skipn_all2 (firstn s idx)) by (rewrite firstn_length; lia). cbn [app].
        rewrite <- (firstn_skipn s idx) at 1. f_equal. rewrite <- (firstn_skipn (length te) (skipn s idx)) at 1. f_equal. now rewrite skipn_skipn'.
    - rewrite shuffle_prob; [now rewrite seq_length|apply seq_NoDup|exact Pt].
  Qed.

  (** *** Each sample is tested equally often *)
  Definition flip (a b x : nat) : nat := if x =? a then b else if x =? b then a else x.
  Lemma flip_flip a b x : flip a b (flip a b x) = x.
  Proof.
    unfold flip. destruct (Nat.eqb_spec x a) as [E1|E1].
    - destruct (Nat.eqb_spec b a) as [E2|E2]; [congruence|]. rewrite Nat.eqb_refl. auto.
    - destruct (Nat.eqb_spec x b) as [E2|E2].
      + rewrite Nat.eqb_refl. auto.
      + destruct (Nat.eqb_spec x a); [congruence|]. destruct (Nat.eqb_spec x b); congruence.
  Qed.
  Lemma flip_perm a b : a < n -> b < n -> Permutation (seq 0 n) (map (flip a b) (seq 0 n)).
  Proof.
    intros Ha Hb. apply NoDup_Permutation.
    - apply seq_NoDup.
    - apply FinFun.Injective_map_NoDup; [|apply seq_NoDup]. intros x y E. rewrite <- (flip_flip a b x), E. apply flip_flip.
    - assert (Hf : forall x, x < n -> flip a b x < n) by (intros x Hx; unfold flip; destruct (x =? a); auto; destruct (x =? b); auto).
      intros x. rewrite in_map_iff. split.
      + intros Hx. apply in_seq in Hx. exists (flip a b x). split; [apply flip_flip|]. apply in_seq. split; [lia|]. apply Hf. lia.
      + intros (y & <- & Hy). apply in_seq in Hy. apply in_seq. split; [lia|]. apply Hf. lia.
  Qed.
  Definition in_test (i j : nat) (idx : list nat) : bool := existsb (Nat.eqb j) (test_of idx k i).
  Lemma in_test_flip i j a b idx : in_test i j (map (flip a b) idx) = in_test i (flip a b j) idx.
  Proof.
    unfold in_test, test_of, start, size. rewrite map_length, skipn_map, firstn_map.
    match goal with |- existsb _ (map _ ?l) = _ => generalize l as m end. induction m as [|x m IH]; cbn [existsb map]; [reflexivity|].
    rewrite IH. f_equal. destruct (Nat.eqb_spec j (flip a b x)) as [N|N]; destruct (Nat.eqb_spec (flip a b j) x) as [E|N']; auto.
    - exfalso. apply N'. now rewrite N, flip_flip.
    - exfalso. apply N. now rewrite <- E, flip_flip.
  Qed.
  Lemma tested_expect i j : i < k -> prob (random_folds n k) (tests_sample i j) = prob (in_place_fisher_yates (seq 0 n)) (in_test i j).
  Proof.
    intros Hi. unfold prob. rewrite random_folds_expect. apply expect_ext. intros idx _. unfold tests_sample. now rewrite nth_split.
  Qed.
  Lemma tested_alike i j j' : j < n -> j' < n -> prob (in_place_fisher_yates (seq 0 n)) (in_test i j) = prob (in_place_fisher_yates (seq 0 n)) (in_test i j').
  Proof.
    intros Hj Hj'. unfold prob. rewrite (shuffle_sym (seq 0 n) (map (flip j j') (seq 0 n))); [|apply seq_NoDup|now apply flip_perm].
    rewrite shuffle_map. apply expect_ext. intros idx _. rewrite in_test_flip. unfold flip. now rewrite Nat.eqb_refl.
  Qed.
  Lemma lsum_seq_const c m : lsum (seq 0 m) (fun _ : nat => c) = (INR m * c)%R.
  Proof. generalize 0%nat. induction m as [|m IH]; intros s; [cbn; lra|]. cbn [seq lsum]. rewrite IH, S_INR. lra. Qed.
  Lemma lsum_plus {A} (l : list A) f g : lsum l (fun a => f a + g a)%R = (lsum l f + lsum l g)%R.
  Proof. induction l; cbn [lsum]; [lra|]. rewrite IHl. lra. Qed.
  Lemma lsum_mem (l : list nat) : NoDup l -> (forall x, In x l -> x < n) -> lsum (seq 0 n) (fun j => ind (existsb (Nat.eqb j) l)) = INR (length l).
  Proof.
    intros ND H. induction l as [|x l IH].
    - cbn [existsb length]. rewrite lsum_seq_const. cbn. lra.
    - inversion ND; subst. change (length (x :: l)) with (S (length l)). rewrite S_INR, <- IH by (auto; intros; apply H; now right).
      rewrite (lsum_ext _ _ (fun j => ind (if Nat.eq_dec x j then true else false) * 1 + ind (existsb (Nat.eqb j) l))%R).
      + rewrite lsum_plus, (lsum_single Nat.eq_dec (seq 0 n) x (fun _ => 1%R)); [lra|apply seq_NoDup|]. apply in_seq. split; [lia|]. apply H. now left.
      + intros j _. cbn [existsb]. destruct (Nat.eq_dec x j) as [->|Ne].
        * rewrite Nat.eqb_refl. cbn [orb]. destruct (existsb (Nat.eqb j) l) eqn:E; [|cbn; lra].
          apply existsb_exists in E. destruct E as (y & Hy & E). apply Nat.eqb_eq in E. subst y. contradiction.
        * destruct (Nat.eqb_spec j x); [congruence|]. cbn. lra.
  Qed.
  Lemma tested_prob i j : i < k -> j < n -> prob (random_folds n k) (tests_sample i j) = (INR (fold_size n k i) / INR n)%R.
  Proof.
    intros Hi Hj. rewrite tested_expect by exact Hi.
    assert (E : lsum (seq 0 n) (fun j => prob (in_place_fisher_yates (seq 0 n)) (in_test i j)) = INR (fold_size n k i)).
    { unfold prob. rewrite <- (expect_lsum (in_place_fisher_yates (seq 0 n)) (seq 0 n) (fun j idx => ind (in_test i j idx))).
      rewrite (expect_ext _ _ (fun _ => INR (fold_size n k i))).
      - apply expect_const. intros Hn. apply in_place_perm in Hn. destruct Hn as (t & E & _). discriminate.
      - intros idx Hx. apply in_place_perm in Hx. destruct Hx as (t' & E & Q). injection E as <-.
        assert (Lx : length idx = n) by (rewrite <- (Permutation_length Q); apply seq_length).
        assert (Pt : Permutation (train_of idx k i ++ test_of idx k i) (seq 0 n)) by (rewrite fold_perm by lia; now symmetry).
        unfold in_test. rewrite lsum_mem.
        + rewrite test_length by lia. now rewrite (size_len idx i Lx).
        + assert (ND : NoDup (train_of idx k i ++ test_of idx k i)) by (apply (Permutation_NoDup (Permutation_sym Pt)), seq_NoDup).
          revert ND. generalize (train_of idx k i) as a. induction a as [|x a IHa]; cbn [app]; intros ND; auto. inversion ND; auto.
        + intros x Hx. assert (Hx' : In x (seq 0 n)) by (apply (Permutation_in _ Pt), in_app_iff; now right). apply in_seq in Hx'. lia. }
    rewrite (lsum_ext _ _ (fun _ => prob (in_place_fisher_yates (seq 0 n)) (in_test i j))) in E by (intros j' Hj'; apply in_seq in Hj'; apply tested_alike; lia).
    rewrite lsum_seq_const in E. rewrite <- E. field. apply not_0_INR. lia.
  Qed.
End Splits.

(** ** Pooled scores *)
Section Pooled.
  Context {M X Y : Type}.
  Variable train : M -> list X -> list Y -> res unit * M.
  Variable predict : M -> list X -> res (list Y).

  Lemma same_splits {F} (score : list Y -> list Y -> res F) inputs targets k m f : length inputs = length targets ->
    expect (k_fold_validate train predict score m inputs targets k) f =
    expect (random_folds (length inputs) k) (fun ps => f (kfold_loop train predict score inputs targets ps m)).
  Proof.
    intros Hl. unfold k_fold_validate, random_folds. rewrite (proj2 (Nat.eqb_eq _ _) Hl), !expect_bind. apply expect_ext. intros idx _.
    destruct (folds idx k); reflexivity.
  Qed.

  Variable v : Y -> Y -> R.
  Variable score : list Y -> list Y -> res R.
  Hypothesis Hv : mean_score v score.
  Variables (inputs : list X) (targets : list Y).

  (** Index and answer of every tested sample, in the order of testing. *)
  Lemma validated_log ps m cs m' : validated train predict score inputs targets ps m (Ok cs) m' ->
    exists outs : list (list Y), length outs = length ps /\ length cs = length ps /\
      Forall2 (fun p out => exists m0 m1 xtr ytr xte yte, rows_at inputs (fst p) xtr /\ rows_at targets (fst p) ytr /\ rows_at inputs (snd p) xte /\
        train m0 xtr ytr = (Ok tt, m1) /\ predict m1 xte = Ok out /\ rows_at targets (snd p) yte /\ length out = length yte) ps outs /\
      (forall d, weighted_sum ps cs = fold_right Rplus 0 (map (fun q => v (snd q) (nth (fst q) targets d)) (combine (concat (map snd ps)) (concat outs))))%R.
  Proof.
    intros H. remember (Ok cs) as r eqn:Er. revert cs Er. induction H as [m|tr te ps m m1 xtr ytr xte yte out c cs m2 R1 R2 R3 R4 T P Sc H IH|tr te ps m m1 xtr ytr xte yte out c m2 r R1 R2 R3 R4 T P Sc H IH Hr|tr te ps m m1 xtr ytr r e R1 R2 T Hr|tr te ps m m1 xtr ytr xte r e R1 R2 R3 T P Hr|tr te ps m m1 xtr ytr xte yte out r e R1 R2 R3 R4 T P Sc Hr]; intros cs0 Er.
    - injection Er as <-. exists []. repeat split; auto.
    - injection Er as <-. destruct (IH cs eq_refl) as (outs & L1 & L2 & F & W). destruct (Hv out yte c Sc) as [Lo Ec].
      exists (out :: outs). split; [cbn; lia|]. split; [cbn; lia|]. split.
      + constructor; auto. exists m, m1, xtr, ytr, xte, yte. cbn [fst snd]. auto 10.
      + intros d. unfold weighted_sum in *. cbn [combine map fold_right fst snd concat]. rewrite (W d).
        assert (Lt : length te = length yte) by (clear - R4; induction R4; cbn; auto).
        assert (Ecomb : forall a b (a' : list nat) (b' : list Y), length a = length b -> combine (a ++ a') (b ++ b') = combine a b ++ combine a' b').
        { clear. induction a as [|x a IHa]; intros [|y b] a' b' L; cbn in *; try discriminate; auto. f_equal. apply IHa. lia. }
        rewrite Ecomb by lia. rewrite map_app, fold_right_app.
        assert (Es : forall l z, fold_right Rplus z l = (fold_right Rplus 0 l + z)%R) by (induction l; intros; cbn; [lra|rewrite IHl; lra]).
        match goal with |- _ = fold_right Rplus ?z ?l => rewrite (Es l z) end. f_equal. rewrite Lt, Ec. unfold paired_sum. clear - R4 Lo. revert out Lo. induction R4 as [|j y te yte E R4 IH]; intros [|o out] Lo; cbn in *; try discriminate; auto.
        rewrite (IH out) by lia. now rewrite (nth_error_nth _ _ d E).
    - destruct Hr as [->|(e & ->)]; discriminate.
    - destruct Hr as [->| ->]; discriminate.
    - destruct Hr as [E| E]; rewrite E in Er; discriminate.
    - destruct Hr as [E| E]; rewrite E in Er; discriminate.
  Qed.

  Lemma assoc_answers (keys : list nat) (vals : list Y) (d : Y) n : Permutation keys (seq 0 n) -> length vals = length keys ->
    exists answers, length answers = n /\ Forall2 (fun j y => nth_error answers j = Some y) keys vals.
  Proof.
    intros P L. assert (ND : NoDup keys) by (apply (Permutation_NoDup (Permutation_sym P)), seq_NoDup).
    assert (Hb : forall j, In j keys -> j < n) by (intros j Hj; apply (Permutation_in _ P) in Hj; apply in_seq in Hj; lia). clear P.
    revert vals L. induction keys as [|j keys IH]; intros [|y vals] L; cbn in L; try discriminate.
    - exists (repeat d n). split; [apply repeat_length|constructor].
    - inversion ND; subst. destruct (IH ltac:(auto) ltac:(intros; apply Hb; now right) vals ltac:(lia)) as (ans & La & F).
      assert (Hj : j < n) by (apply Hb; now left).
      exists (firstn j ans ++ y :: skipn (S j) ans). split.
      + rewrite app_length. cbn [length]. rewrite firstn_length, skipn_length. lia.
      + constructor.
        * rewrite nth_error_app2 by (rewrite firstn_length; lia). rewrite firstn_length, Nat.min_l by lia. now rewrite Nat.sub_diag.
        * clear IH ND Hb L. induction F as [|i z keys vals E F IHF]; constructor.
          -- assert (i <> j) by (intros ->; apply H1; now left).
             destruct (Nat.lt_ge_cases i j) as [Hlt|Hge].
             ++ rewrite nth_error_app1 by (rewrite firstn_length; lia). rewrite <- E. rewrite <- (firstn_skipn j ans) at 2. now rewrite nth_error_app1 by (rewrite firstn_length; lia).
             ++ rewrite nth_error_app2 by (rewrite firstn_length; lia). rewrite firstn_length, Nat.min_l by lia.
                replace (i - j) with (S (i - S j)) by lia. cbn [nth_error]. rewrite <- E. rewrite <- (firstn_skipn (S j) ans) at 2. rewrite nth_error_app2 by (rewrite firstn_length; lia).
                rewrite firstn_length, Nat.min_l by lia. reflexivity.
          -- apply IHF; [|inversion H2; auto]. intros Hin. apply H1. now right.
  Qed.

  Lemma pooled k m cs m' : outcome (k_fold_validate train predict score m inputs targets k) (Some (Ok cs, m')) ->
    exists ps answers, kfold_partition (length targets) k ps /\ length cs = k /\ held_out train predict inputs targets ps answers /\
      weighted_sum ps cs = paired_sum v answers targets.
  Proof.
    intros Ho. destruct (k_fold_validate_spec train predict score inputs targets k m _ Ho) as [[_ E]|(Hl & Hk & ps & r & m2 & E & KP & V)]; [discriminate|].
    injection E as <- <-. destruct (validated_log _ _ _ _ V) as (outs & L1 & L2 & F & W).
    destruct KP as (Kl & Kp & Kc & Ks). rewrite Hl in *.
    destruct targets as [|d ts] eqn:Et; [cbn in Hk; lia|]. rewrite <- Et in *.
    assert (Lv : length (concat outs) = length (concat (map snd ps))).
    { clear - F. induction F as [|p out ps outs H F IH]; cbn; auto. rewrite !app_length, IH. f_equal.
      destruct H as (m0 & m1 & xtr & ytr & xte & yte & _ & _ & _ & _ & _ & R4 & Lo). rewrite Lo. symmetry. clear - R4. induction R4; cbn; auto. }
    destruct (assoc_answers (concat (map snd ps)) (concat outs) d (length targets) Kc Lv) as (ans & La & Fa).
    exists ps, ans. split; [repeat split; auto|]. split; [lia|]. split.
    - split; auto. clear - F Fa. induction F as [|p out ps outs H F IH]; intros tr te Hin; [destruct Hin|].
      cbn [map concat] in Fa. destruct H as (m0 & m1 & xtr & ytr & xte & yte & R1 & R2 & R3 & T & P & R4 & Lo).
      assert (Lt : length (snd p) = length yte) by (clear - R4; induction R4; cbn; auto).
      assert (Sp : Forall2 (fun j y => nth_error ans j = Some y) (snd p) out /\ Forall2 (fun j y => nth_error ans j = Some y) (concat (map snd ps)) (concat outs)).
      { assert (L : length (snd p) = length out) by lia. clear - Fa L. revert out L Fa. induction (snd p) as [|j te IHt]; intros [|o out] L Fa; cbn in *; try discriminate; auto.
        inversion Fa; subst. destruct (IHt out ltac:(lia) ltac:(auto)). split; auto. }
      destruct Hin as [-> |Hin].
      + exists m0, m1, xtr, ytr, xte, out. cbn [fst snd] in *. unfold rows_at at 4. tauto.
      + exact (IH (proj2 Sp) tr te Hin).
    - rewrite (W d).
      transitivity (fold_right Rplus 0 (map (fun j => v (nth j ans d) (nth j targets d)) (concat (map snd ps))))%R.
      + clear - Fa. induction Fa as [|j y keys vals E Fa IH]; cbn; auto. rewrite IH. now rewrite (nth_error_nth _ _ d E).
      + transitivity (fold_right Rplus 0 (map (fun j => v (nth j ans d) (nth j targets d)) (seq 0 (length targets))))%R.
        * clear - Kc. induction Kc; cbn; auto; try lra; congruence.
        * unfold paired_sum. clear - La. revert targets La. induction ans as [|a ans IH]; intros [|t ts] L; cbn in *; try discriminate; auto.
          rewrite <- (IH ts) by lia. f_equal. now rewrite <- seq_shift, map_map.
  Qed.

  (** Folds of equal size: the plain mean of the scores is the mean value over all samples. *)
  Lemma pooled_mean k m cs m' : length targets mod k = 0 -> outcome (k_fold_validate train predict score m inputs targets k) (Some (Ok cs, m')) ->
    exists ps answers, kfold_partition (length targets) k ps /\ held_out train predict inputs targets ps answers /\
      (fold_right Rplus 0 cs / INR k = paired_sum v answers targets / INR (length targets))%R.
  Proof.
    intros Hd Ho. destruct (pooled k m cs m' Ho) as (ps & ans & KP & Lc & HO & W). exists ps, ans. split; auto. split; auto.
    destruct (k_fold_validate_spec train predict score inputs targets k m _ Ho) as [[_ E]|(Hl & Hk & _)]; [discriminate|]. rewrite Hl in Hk.
    rewrite <- W. assert (En : length targets = k * (length targets / k)) by (pose proof (Nat.div_mod (length targets) k ltac:(lia)); lia).
    destruct KP as (Kl & Kp & Kc & Ks).
    assert (Ws : weighted_sum ps cs = (INR (length targets / k) * fold_right Rplus 0 cs)%R).
    { assert (Hs : forall tr te, In (tr, te) ps -> length te = length targets / k).
      { intros tr te Hin. apply In_nth_error in Hin. destruct Hin as (i & Hi). rewrite (Ks _ _ _ Hi), Hd. cbn. lia. }
      unfold weighted_sum. assert (L : length cs = length ps) by lia. clear - Hs L. revert ps L Hs. induction cs as [|c cs IH]; intros [|[tr te] ps] L Hs; cbn in *; try discriminate; [lra|].
      rewrite IH by (auto; intros; eapply Hs; eauto). rewrite (Hs tr te) by auto. lra. }
    rewrite Ws, En at 1. rewrite En at 2. rewrite mult_INR.
    assert (0 < INR k)%R by (apply lt_0_INR; lia).
    assert (0 < INR (length targets / k))%R by (apply lt_0_INR; destruct (length targets / k); lia).
    rewrite (Nat.mul_comm k), Nat.div_mul by lia. field. lra.
  Qed.
End Pooled.
