(** The laws of the Forgy and random-partition initialisers. *)
From Coq Require Import List Arith Lia Bool Reals Lra.
From Verif Require Import Base BaseLemmas Num Linalg Model_KMeans Proof_Rand Proof_KMeans2 Spec_KMFair.
Import ListNotations.


(** ** Forgy *)
Lemma forgy_prefix fuel k n : forall ch l, outcome (forgy_loop fuel k n ch) (Some (Some l)) -> exists t, l = ch ++ t.
Proof.
  induction fuel as [|fuel IH]; intros ch l; cbn [forgy_loop]; destruct (length ch <? k); intros H; try (inversion H; subst; exists []; now rewrite app_nil_r).
  cbn [gen_range rnd_bind] in H. inversion H as [|? ? i ? Hi Hk| |]; subst. destruct (existsb (Nat.eqb i) ch); [now apply IH|].
  apply IH in Hk. destruct Hk as (t & ->). exists (i :: t). now rewrite <- app_assoc.
Qed.
Fixpoint chance (fuel k n j : nat) : R :=
  if (j <? k)%nat then match fuel with 0 => 0%R | S f => ((INR j * chance f k n j + chance f k n (S j)) / INR n)%R end else 1%R.
Fixpoint open_chance (fuel k n j : nat) : R :=
  if (j <? k)%nat then match fuel with 0 => 1%R | S f => ((INR j * open_chance f k n j + (INR n - INR j) * open_chance f k n (S j)) / INR n)%R end else 0%R.
Lemma forgy_open fuel k n : k <= n -> forall ch, NoDup ch -> Forall (fun i => i < n) ch -> length ch <= k ->
  prob (forgy_loop fuel k n ch) unfinished = open_chance fuel k n (length ch).
Proof.
  intros KN. induction fuel as [|fuel IH]; intros ch ND LT LE; unfold prob; cbn [forgy_loop open_chance]; destruct (Nat.ltb_spec (length ch) k) as [H|H]; try reflexivity.
  rewrite expect_bind. unfold gen_range. cbn [expect]. f_equal. rewrite <- (sumR_split_in n ch _ _ ND LT). apply sumR_ext. intros i Hi.
  destruct (existsb (Nat.eqb i) ch) eqn:E; [now apply IH|]. unfold prob in IH. rewrite IH; [now rewrite app_length, Nat.add_1_r| | |].
  - apply NoDup_snoc; auto. rewrite <- existsb_in, E. discriminate.
  - apply Forall_app; auto.
  - rewrite app_length. cbn. lia.
Qed.
Lemma forgy_chance fuel k n : k <= n -> forall w ch, NoDup (ch ++ w) -> Forall (fun i => i < n) (ch ++ w) -> length ch + length w = k ->
  prob (forgy_loop fuel k n ch) (chosen (ch ++ w)) = chance fuel k n (length ch).
Proof.
  intros KN. induction fuel as [|fuel IH]; intros w ch ND LT LE; unfold prob; cbn [forgy_loop chance]; destruct (Nat.ltb_spec (length ch) k) as [H|H].
  - reflexivity.
  - destruct w; [|cbn in LE; lia]. rewrite app_nil_r. cbn [expect chosen]. now destruct list_eq_dec.
  - rewrite expect_bind. unfold gen_range. cbn [expect]. f_equal. destruct w as [|x w]; [cbn in LE; lia|].
    assert (NDc : NoDup ch) by (clear - ND; induction ch as [|a ch IH]; [constructor|]; inversion ND; subst; constructor; [intros X; apply H1, in_or_app; now left|now apply IH]).
    assert (LTc : Forall (fun i => i < n) ch) by (apply Forall_app in LT; apply LT).
    assert (Hx : ~ In x ch) by (apply NoDup_remove_2 in ND; intros X; apply ND, in_or_app; now left).
    assert (Xn : x < n) by (apply Forall_app in LT; destruct LT as [_ LT]; now inversion LT).
    set (p := chance fuel k n (length ch)). set (q := chance fuel k n (S (length ch))).
    transitivity (sumR n (fun i => (if existsb (Nat.eqb i) ch then p else 0) + (if i =? x then q else 0))%R).
    + apply sumR_ext. intros i Hi. destruct (existsb (Nat.eqb i) ch) eqn:E.
      * rewrite existsb_in in E. destruct (Nat.eqb_spec i x) as [->|]; [contradiction|]. rewrite Rplus_0_r. apply (IH (x :: w) ch ND LT LE).
      * destruct (Nat.eqb_spec i x) as [->|NE].
        -- rewrite Rplus_0_l. replace (ch ++ x :: w) with ((ch ++ [x]) ++ w) by now rewrite <- app_assoc.
           unfold q. replace (S (length ch)) with (length (ch ++ [x])) by (rewrite app_length; cbn; lia).
           apply IH; rewrite ?app_length; cbn [length] in *; try (rewrite <- app_assoc; assumption). lia.
        -- rewrite Rplus_0_l. apply expect_zero. intros [l|] Ho; [|reflexivity]. apply forgy_prefix in Ho. destruct Ho as (t & ->). unfold chosen.
           destruct list_eq_dec as [EL|]; [|reflexivity]. exfalso. rewrite <- app_assoc in EL. apply app_inv_head in EL. injection EL as EL _. contradiction.
    + rewrite sumR_plus, (sumR_split_in n ch p 0 NDc LTc), (sumR_single n _ x Xn); [rewrite Nat.eqb_refl; ring|].
      intros i _ NE. now destruct (Nat.eqb_spec i x).
  - destruct w; [|cbn in LE; lia]. rewrite app_nil_r. cbn [expect chosen]. now destruct list_eq_dec.
Qed.
Lemma chance_open k n fuel : k <= n -> forall j, j <= k -> (INR (arrangements (n - j) (k - j)) * chance fuel k n j = 1 - open_chance fuel k n j)%R.
Proof.
  intros KN. induction fuel as [|fuel IH]; intros j Hj; cbn [chance open_chance]; destruct (Nat.ltb_spec j k) as [H|H].
  - ring.
  - replace (k - j) with 0 by lia. cbn. ring.
  - assert (Pn : (0 < INR n)%R) by (apply lt_0_INR; lia). pose proof (IH j ltac:(lia)) as E1. pose proof (IH (S j) ltac:(lia)) as E2.
    replace (k - j) with (S (k - S j)) in * by lia. cbn [arrangements] in *. replace (n - j - 1) with (n - S j) in * by lia.
    rewrite mult_INR, minus_INR in * by lia. set (A := INR (arrangements (n - S j) (k - S j))) in *.
    replace ((INR n - INR j) * A * ((INR j * chance fuel k n j + chance fuel k n (S j)) / INR n))%R
      with ((INR j * ((INR n - INR j) * A * chance fuel k n j) + (INR n - INR j) * (A * chance fuel k n (S j))) / INR n)%R by (field; lra).
    rewrite E1, E2. field. lra.
  - replace (k - j) with 0 by lia. cbn. ring.
Qed.
Lemma arr_pos k : forall n, k <= n -> 0 < arrangements n k.
Proof. induction k as [|k IH]; intros n H; cbn [arrangements]; [lia|]. specialize (IH (n - 1) ltac:(lia)). nia. Qed.
Theorem forgy_law fuel k n a : k <= n -> NoDup a -> Forall (fun i => i < n) a -> length a = k ->
  prob (forgy_loop fuel k n []) (chosen a) = ((1 - prob (forgy_loop fuel k n []) unfinished) / INR (arrangements n k))%R.
Proof.
  intros KN ND LT L. pose proof (forgy_chance fuel k n KN a [] ND LT L) as EC. cbn [app length] in EC. rewrite EC. rewrite (forgy_open fuel k n KN []) by (try constructor; cbn; lia). cbn [length].
  pose proof (chance_open k n fuel KN 0 ltac:(lia)) as E. rewrite !Nat.sub_0_r in E. pose proof (arr_pos k n KN) as P. apply lt_0_INR in P. rewrite <- E. field. lra.
Qed.
Theorem forgy_limit k n a : k <= n -> NoDup a -> Forall (fun i => i < n) a -> length a = k ->
  forall eps, (0 < eps)%R -> exists f0, forall fuel, f0 <= fuel -> (Rabs (prob (forgy_loop fuel k n []) (chosen a) - / INR (arrangements n k)) < eps)%R.
Proof.
  intros KN ND LT L eps HE. destruct (Nat.eq_dec n 0) as [->|Hn].
  - exists 0. intros fuel _. assert (k = 0) by lia. subst k. destruct a; [|cbn in *; lia]. destruct fuel; cbn; rewrite Rinv_1, Rminus_diag_eq by reflexivity; now rewrite Rabs_R0.
  - assert (Pn : (1 <= INR n)%R) by (apply (le_INR 1); lia).
    assert (B : (1 / (2 * INR n) <= / 2)%R). { apply Rmult_le_reg_r with (2 * INR n)%R; [lra|]. field_simplify; lra. }
    assert (B2 : (0 < 1 / (2 * INR n))%R). { apply Rdiv_lt_0_compat; lra. }
    set (r := (1 - 1 / (2 * INR n))%R). assert (Hr : (Rabs r < 1)%R) by (unfold r; rewrite Rabs_pos_eq; lra).
    assert (P2 : (0 < 2 ^ k)%R) by (apply pow_lt; lra).
    destruct (pow_lt_1_zero r Hr (eps / 2 ^ k)) as (f0 & Hf); [apply Rdiv_lt_0_compat; lra|].
    exists f0. intros fuel Hfl. rewrite (forgy_law fuel k n a KN ND LT L). pose proof (arr_pos k n KN) as P. apply (le_INR 1) in P. cbn [INR] in P.
    set (A := INR (arrangements n k)) in *. pose proof (forgy_prob fuel k n KN [] ltac:(constructor) ltac:(constructor) ltac:(cbn; lia)) as U. cbn [length] in U. rewrite Nat.sub_0_r in U. fold r in U.
    set (u := prob (forgy_loop fuel k n []) unfinished) in *. assert (U0 : (0 <= u)%R).
    { unfold u, prob. clear. induction (forgy_loop fuel k n []) as [o|hi f IH|]; cbn [expect]; [destruct o; cbn; lra| |lra].
      destruct hi as [|hi]; [cbn; unfold Rdiv; rewrite Rinv_0; lra|]. apply Rmult_le_pos; [apply sumR_ge0; intros; apply IH|left; apply Rinv_0_lt_compat, lt_0_INR; lia]. }
    replace ((1 - u) / A - / A)%R with (- (u / A))%R by (field; lra). rewrite Rabs_Ropp, Rabs_pos_eq by (apply Rmult_le_pos; [exact U0|left; apply Rinv_0_lt_compat; lra]).
    apply Rle_lt_trans with u.
    + apply Rmult_le_reg_r with A; [lra|]. unfold Rdiv. rewrite Rmult_assoc, Rinv_l by lra. rewrite Rmult_1_r. rewrite <- (Rmult_1_r u) at 1. apply Rmult_le_compat_l; lra.
    + eapply Rle_lt_trans; [exact U|]. specialize (Hf fuel Hfl). rewrite Rabs_pos_eq in Hf by (apply pow_le; unfold r; lra).
      apply (Rmult_lt_compat_l (2 ^ k)) in Hf; [|exact P2]. replace (2 ^ k * (eps / 2 ^ k))%R with eps in Hf by (field; lra). exact Hf.
Qed.

(** ** Random partition *)
Definition part_body (k : nat) : nat -> list (list nat) -> Rnd (list (list nat)) := fun i a =>
  let! idx := gen_range k in let! v := rnd_opt (nth_error a idx) in rnd_opt (upd a idx (v ++ [i])).
Definition ext (a : list (list nat)) (k start : nat) (g : list nat) : list (list nat) :=
  map (fun c => nth c a [] ++ filter (fun i => nth (i - start) g k =? c) (seq start (length g))) (seq 0 (length a)).
Definition put (a : list (list nat)) (x i : nat) : list (list nat) := map (fun c => if c =? x then nth c a [] ++ [i] else nth c a []) (seq 0 (length a)).
Lemma put_length a x i : length (put a x i) = length a. Proof. unfold put. now rewrite map_length, seq_length. Qed.
Lemma put_nth a x i c : c < length a -> nth c (put a x i) [] = if c =? x then nth c a [] ++ [i] else nth c a [].
Proof.
  intros H. unfold put. rewrite (nth_indep _ [] ((fun c => if c =? x then nth c a [] ++ [i] else nth c a []) 0)) by now rewrite map_length, seq_length.
  rewrite (map_nth (fun c => if c =? x then nth c a [] ++ [i] else nth c a [])), seq_nth by exact H. reflexivity.
Qed.
Lemma put_upd a x i : x < length a -> upd a x (nth x a [] ++ [i]) = Some (put a x i).
Proof.
  intros H. destruct (upd a x (nth x a [] ++ [i])) as [b|] eqn:E; [|apply upd_None in E; lia]. f_equal. apply nth_ext with (d := []) (d' := []).
  - rewrite put_length. eapply upd_length, E.
  - intros j Hj. rewrite (upd_length _ _ _ _ E) in Hj. rewrite put_nth by exact Hj.
    pose proof (upd_nth_error _ _ _ _ j E) as Q. destruct (Nat.eqb_spec j x) as [->|NE]; [now apply nth_error_nth with (d := []) in Q|].
    rewrite (nth_error_nth' a []) in Q by exact Hj. now apply nth_error_nth with (d := []) in Q.
Qed.
Lemma ext_nil a k start : ext a k start [] = a.
Proof.
  unfold ext. cbn [length seq filter]. rewrite (map_ext _ (fun c => nth c a [])) by (intros; apply app_nil_r). apply nth_ext with (d := []) (d' := []).
  - now rewrite map_length, seq_length.
  - intros j Hj. rewrite map_length, seq_length in Hj. rewrite (nth_indep _ [] (nth 0 a [])) by now rewrite map_length, seq_length.
    rewrite (map_nth (fun c => nth c a [])), seq_nth by exact Hj. reflexivity.
Qed.
Lemma ext_put a k start x g : ext (put a x start) k (S start) g = ext a k start (x :: g).
Proof.
  unfold ext. rewrite put_length. apply map_ext_in. intros c Hc. apply in_seq in Hc. rewrite put_nth by lia. cbn [length seq filter]. rewrite Nat.sub_diag. cbn [nth].
  assert (E : filter (fun i => nth (i - S start) g k =? c) (seq (S start) (length g)) = filter (fun i => nth (i - start) (x :: g) k =? c) (seq (S start) (length g))).
  { apply filter_ext_in. intros i Hi. apply in_seq in Hi. replace (i - start) with (S (i - S start)) by lia. reflexivity. }
  rewrite E, (Nat.eqb_sym x c). destruct (c =? x); [now rewrite <- app_assoc|reflexivity].
Qed.
Lemma part_kept k m : forall start a b, length a = k -> outcome (rnd_for start m (part_body k) a) (Some b) ->
  forall c i, c < k -> i < start -> (In i (nth c b []) <-> In i (nth c a [])).
Proof.
  induction m as [|m IH]; intros start a b L H c i Hc Hi; cbn [rnd_for] in H; [inversion H; subst; reflexivity|].
  unfold part_body at 1 in H. cbn [gen_range rnd_bind] in H. inversion H as [|? ? x ? Hx Hk| |]; subst. rewrite (nth_error_nth' a []) in Hk by lia.
  cbn [rnd_opt rnd_bind] in Hk. rewrite put_upd in Hk by lia. cbn [rnd_opt rnd_bind] in Hk.
  rewrite (IH (S start) (put a x start) b (put_length _ _ _) Hk c i Hc ltac:(lia)). rewrite put_nth by lia.
  destruct (c =? x); [|reflexivity]. rewrite in_app_iff. split; [intros [|[->|[]]]; [assumption|lia]|now left].
Qed.
Lemma part_prob k : forall g start a, length a = k -> Forall (fun c => c < k) g -> (forall c i, c < k -> In i (nth c a []) -> i < start) ->
  prob (rnd_for start (length g) (part_body k) a) (eqc (ext a k start g)) = ((/ INR k) ^ length g)%R.
Proof.
  induction g as [|x g IH]; intros start a L HG HA; unfold prob; cbn [length rnd_for pow].
  - rewrite ext_nil. cbn [expect]. unfold eqc. now destruct list_eq_dec.
  - inversion HG as [|? ? Hx HG']; subst x0 l. rewrite expect_bind. unfold part_body at 1. cbn [gen_range rnd_bind expect].
    rewrite (sumR_single k _ x Hx).
    + rewrite (nth_error_nth' a []) by lia. cbn [rnd_opt rnd_bind]. rewrite put_upd by lia. cbn [rnd_opt expect].
      rewrite <- ext_put. unfold prob in IH. rewrite (IH (S start) (put a x start)); [unfold Rdiv; apply Rmult_comm|now rewrite put_length|exact HG'|].
      intros c i Hc HI. rewrite put_nth in HI by lia. destruct (c =? x); [|specialize (HA c i Hc HI); lia]. apply in_app_or in HI. destruct HI as [HI|[->|[]]]; [|lia]. specialize (HA c i Hc HI). lia.
    + intros i Hi NE. rewrite (nth_error_nth' a []) by lia. cbn [rnd_opt rnd_bind]. rewrite put_upd by lia. cbn [rnd_opt expect].
      apply expect_zero. intros b Hb. unfold eqc. destruct list_eq_dec as [->|]; [|reflexivity]. exfalso.
      pose proof (part_kept k (length g) (S start) (put a i start) _ ltac:(now rewrite put_length) Hb i start Hi ltac:(lia)) as K.
      rewrite put_nth, Nat.eqb_refl in K by lia. assert (Q : In start (nth i (ext a k start (x :: g)) [])) by (apply K, in_or_app; right; now left).
      unfold ext in Q. rewrite (nth_indep _ [] ((fun c => nth c a [] ++ filter (fun i => nth (i - start) (x :: g) k =? c) (seq start (length (x :: g)))) 0)) in Q by (rewrite map_length, seq_length; lia).
      rewrite (map_nth (fun c => nth c a [] ++ filter (fun i => nth (i - start) (x :: g) k =? c) (seq start (length (x :: g))))), seq_nth in Q by lia. cbn [plus] in Q.
      apply in_app_or in Q. destruct Q as [Q|Q]; [specialize (HA i start Hi Q); lia|]. apply filter_In in Q. destruct Q as [_ Q]. rewrite Nat.sub_diag in Q. cbn [nth] in Q. apply Nat.eqb_eq in Q. congruence.
Qed.
Theorem partition_law k n g : k <= n -> length g = n - k -> Forall (fun c => c < k) g ->
  prob (partition_loop k n) (eqc (classes_by k g)) = ((/ INR k) ^ (n - k))%R.
Proof.
  intros KN L HG. unfold partition_loop. rewrite <- L. change (rnd_for k (length g) _ ?a) with (rnd_for k (length g) (part_body k) a).
  assert (LA : length (map (fun i => [i]) (seq 0 k)) = k) by now rewrite map_length, seq_length.
  assert (NA : forall c, c < k -> nth c (map (fun i => [i]) (seq 0 k)) [] = [c]).
  { intros c Hc. rewrite (nth_indep _ [] ((fun i => [i]) 0)) by lia. rewrite (map_nth (fun i => [i])), seq_nth by exact Hc. reflexivity. }
  rewrite <- (part_prob k g k (map (fun i => [i]) (seq 0 k)) LA HG).
  - f_equal. f_equal. unfold ext, classes_by. rewrite LA. apply map_ext_in. intros c Hc. apply in_seq in Hc. rewrite NA by lia. reflexivity.
  - intros c i Hc HI. rewrite NA in HI by exact Hc. destruct HI as [<-|[]]. exact Hc.
Qed.
