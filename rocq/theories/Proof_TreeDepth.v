(** * How deep and how large a search tree is *)
From Coq Require Import List Arith Lia Bool Permutation Reals Lra ZArith.
From Verif Require Import Base BaseLemmas Num NumOrd Linalg LinalgR Spec_Calc CalcR Model_KNN Spec_KNN Spec_TreeDepth
  Proof_KNearest Proof_Tree Proof_TreeBall Proof_TreeTerm Proof_KNNEx.
Import ListNotations.

Section Gen.
  Context {F : Type} {N : Num F} {G : Type} (B : BinarySplit (F := F) G) (data : matrix F).

  Lemma filter_lengths (f : nat -> bool) l : length (filter f l) + length (filter (fun r => negb (f r)) l) = length l.
  Proof. induction l as [|x l IH]; cbn; auto. destruct (f x); cbn; lia. Qed.

  Lemma select_sizes fuel : forall remains dmin dmax dim sp l r lmax rmin,
    select_split fuel data remains dmin dmax = Some (Ok (dim, sp, l, r, lmax, rmin)) ->
    1 <= length l /\ 1 <= length r /\ length l + length r = length remains.
  Proof.
    induction fuel as [|fuel IH]; intros remains dmin dmax dim sp l r lmax rmin; cbn [select_split]; [discriminate|].
    destruct (argmax (vsub dmax dmin)) as [[dm d]| |]; try discriminate.
    set (s := nadd (nth dm dmin nzero) (ndiv d (nadd nonev nonev))). cbv zeta.
    set (f := fun r0 => nltb (nth dm (nth r0 (mrows data) []) nzero) s).
    change (filter (fun r0 : nat => negb (nltb (nth dm (nth r0 (mrows data) []) nzero) s)) remains)
      with (filter (fun r0 => negb (f r0)) remains).
    pose proof (filter_lengths f remains) as L.
    destruct (filter f remains) as [|l0 ls] eqn:El; [|destruct (filter (fun r0 => negb (f r0)) remains) as [|r0 rs] eqn:Er].
    - intros H. apply IH in H. cbn [length] in L. lia.
    - intros H. apply IH in H. cbn [length] in *. lia.
    - intros H. inversion H; subst. cbn [length] in *. lia.
  Qed.

  Lemma split_sizes leafsize fuel : forall remains dmin dmax t,
    split B fuel leafsize data remains dmin dmax = Some (Ok t) ->
    depth t <= 1 + (length remains + 1 - leafsize) /\
    (remains <> [] -> S (length (nodes t)) <= 2 * length remains) /\
    length remains <= 2 ^ (depth t - 1) * (leafsize - 1).
  Proof.
    induction fuel as [|fuel IH]; intros remains dmin dmax t; cbn [split]; [discriminate|].
    destruct (length remains <? leafsize) eqn:LS.
    - intros H. inversion H; subst. apply Nat.ltb_lt in LS. cbn [depth nodes length Nat.sub Nat.pow].
      split; [lia|]. split; [|lia]. intros NE. destruct remains; [congruence|]. cbn [length]. lia.
    - apply Nat.ltb_ge in LS.
      destruct (select_split fuel data remains dmin dmax) as [[[[[[[dim sp] l] r] lmax] rmin]|e|]|] eqn:ES; try discriminate.
      apply select_sizes in ES.
      destruct (split B fuel leafsize data l dmin lmax) as [[ln|e|]|] eqn:EL; try discriminate.
      destruct (split B fuel leafsize data r rmin dmax) as [[rn|e|]|] eqn:ER; try discriminate.
      destruct (bs_build B data remains dmin dmax) as [g|e|]; try discriminate.
      intros H. inversion H; subst t; clear H.
      apply IH in EL. apply IH in ER. destruct EL as (L1 & L2 & L3), ER as (R1 & R2 & R3).
      assert (NL : l <> []) by (intros ->; cbn in ES; lia). assert (NR : r <> []) by (intros ->; cbn in ES; lia).
      specialize (L2 NL). specialize (R2 NR).
      cbn [depth nodes]. split; [lia|]. split.
      + intros _. cbn [length]. rewrite app_length. lia.
      + assert (D : forall t : node (F := F) G, 1 <= depth t) by (intros []; cbn; lia).
        pose proof (D ln) as D1. pose proof (D rn) as D2.
        replace (S (Nat.max (depth ln) (depth rn)) - 1) with (S (Nat.max (depth ln) (depth rn) - 1)) by lia.
        cbn [Nat.pow].
        assert (P1 : 2 ^ (depth ln - 1) <= 2 ^ (Nat.max (depth ln) (depth rn) - 1)) by (apply Nat.pow_le_mono_r; lia).
        assert (P2 : 2 ^ (depth rn - 1) <= 2 ^ (Nat.max (depth ln) (depth rn) - 1)) by (apply Nat.pow_le_mono_r; lia).
        apply (Nat.mul_le_mono_r _ _ (leafsize - 1)) in P1. apply (Nat.mul_le_mono_r _ _ (leafsize - 1)) in P2.
        lia.
  Qed.

  Theorem tree_sizes fuel leafsize t : 0 < nrows data -> tree_build B fuel leafsize data = Some (Ok t) ->
    depth t <= 1 + (nrows data + 1 - leafsize) /\ length (nodes t) < 2 * nrows data /\
    nrows data <= 2 ^ (depth t - 1) * (leafsize - 1).
  Proof.
    intros NE. unfold tree_build. destruct (data_min data); try discriminate. destruct (data_max data); try discriminate.
    intros H. apply split_sizes in H. rewrite seq_length in H. destruct H as (A & K & D). split; auto. split; auto.
    enough (S (length (nodes t)) <= 2 * nrows data) by lia. apply K. destruct (nrows data); [lia|discriminate].
  Qed.
End Gen.

(** ** A chain *)
Section Chain.
  Context {G : Type} (B : BinarySplit (F := R) G).
  Open Scope R_scope.

  Lemma pow2_pos i : 0 < 2 ^ i. Proof. apply pow_lt. lra. Qed.
  Lemma pow2_mono i j : (i <= j)%nat -> 2 ^ i <= 2 ^ j. Proof. apply Rle_pow. lra. Qed.

  Lemma doubling_row n i : (i < n)%nat -> nth i (mrows (doubling n)) [] = [2 ^ i].
  Proof.
    intros H. cbn [mrows doubling]. rewrite (nth_indep _ [] ((fun i => [2 ^ i]) 0%nat)) by (rewrite map_length, seq_length; lia).
    refine (eq_trans (map_nth (fun i => [2 ^ i]) (seq 0 n) 0%nat i) _). now rewrite seq_nth by lia.
  Qed.

  Lemma filter_all (f : nat -> bool) l : (forall x, In x l -> f x = true) -> filter f l = l.
  Proof. induction l as [|x l IH]; intros H; cbn; auto. rewrite (H x) by now left. rewrite IH; auto. intros; apply H; now right. Qed.
  Lemma filter_none (f : nat -> bool) l : (forall x, In x l -> f x = false) -> filter f l = [].
  Proof. induction l as [|x l IH]; intros H; cbn; auto. rewrite (H x) by now left. apply IH. intros; apply H; now right. Qed.

  Lemma chain_split n leafsize p : (2 <= leafsize)%nat -> (p < n)%nat -> forall fuel e t, 0 < e <= 1 ->
    split B fuel leafsize (doubling n) (seq 0 (S p)) [1] [1 + 2 ^ p - e] = Some (Ok t) ->
    depth t = (1 + (S p + 1 - leafsize))%nat.
  Proof.
    intros Ls. induction p as [|p IH]; intros Hp fuel e t He; (destruct fuel as [|fuel]; [discriminate|]); cbn [split].
    - change (length (seq 0 1)) with 1%nat. replace (1 <? leafsize)%nat with true by (symmetry; apply Nat.ltb_lt; lia).
      intros H. inversion H. cbn [depth]. lia.
    - rewrite seq_length. destruct (S (S p) <? leafsize)%nat eqn:LS.
      + intros H. inversion H. apply Nat.ltb_lt in LS. cbn [depth]. lia.
      + apply Nat.ltb_ge in LS. destruct fuel as [|fuel]; [discriminate|].
        cbn [select_split vsub map2 argmax argbest nth].
        set (s := nadd 1 (ndiv (nsub (1 + 2 ^ S p - e) 1) (nadd nonev nonev))).
        assert (Es : s = 1 + 2 ^ p - e / 2) by (unfold s; cbn [nadd ndiv nsub nonev NumR pow]; lra).
        set (f := fun r0 => nltb (nth 0 (nth r0 (mrows (doubling n)) []) nzero) s). cbv zeta.
        change (filter (fun r0 : nat => negb (nltb (nth 0 (nth r0 (mrows (doubling n)) []) nzero) s)) (seq 0 (S (S p))))
          with (filter (fun r0 => negb (f r0)) (seq 0 (S (S p)))).
        assert (F1 : forall i, In i (seq 0 (S p)) -> f i = true).
        { intros i Hi. apply in_seq in Hi. unfold f. rewrite doubling_row by lia. cbn [nth]. cbn [nltb NumR].
          destruct (Rlt_dec (2 ^ i) s) as [|K]; auto. exfalso. apply K. rewrite Es.
          pose proof (pow2_mono i p ltac:(lia)). lra. }
        assert (F2 : f (S p) = false).
        { unfold f. rewrite doubling_row by lia. cbn [nth]. cbn [nltb NumR].
          destruct (Rlt_dec (2 ^ S p) s) as [K|]; auto. exfalso. rewrite Es in K. cbn [pow] in K.
          pose proof (pow2_mono 0 p ltac:(lia)) as P. cbn [pow] in P. lra. }
        assert (E1 : filter f (seq 0 (S (S p))) = seq 0 (S p)).
        { rewrite (seq_S (S p)), filter_app, (filter_all _ _ F1). cbn [filter plus]. rewrite F2. now rewrite app_nil_r. }
        assert (E2 : filter (fun r0 => negb (f r0)) (seq 0 (S (S p))) = [S p]).
        { rewrite (seq_S (S p)), filter_app, (filter_none _ (seq 0 (S p))) by (intros x Hx; now rewrite (F1 x Hx)).
          cbn [filter plus app]. now rewrite F2. }
        rewrite E1, E2. change (seq 0 (S p)) with (0%nat :: seq 1 p) at 1. cbv iota.
        cbn [vset].
        rewrite Es. replace (1 + 2 ^ p - e / 2) with (1 + 2 ^ p - (e / 2)) by lra.
        change (0%nat :: seq 1 p) with (seq 0 (S p)).
        destruct (split B (S fuel) leafsize (doubling n) (seq 0 (S p)) [1] [1 + 2 ^ p - e / 2]) as [[ln|x|]|] eqn:EL; try discriminate.
        apply IH in EL; [|lia|lra].
        cbn [split length]. replace (1 <? leafsize)%nat with true by (symmetry; apply Nat.ltb_lt; lia).
        cbv iota. destruct (bs_build B (doubling n) (seq 0 (S (S p))) [1] [1 + 2 ^ S p - e]); try discriminate.
        intros H. injection H as H. subst t. cbn [depth]. lia.
  Qed.

  Lemma doubling_nrows n : nrows (doubling n) = n.
  Proof. unfold nrows. cbn [mrows doubling]. now rewrite map_length, seq_length. Qed.

  Lemma min_pow rows k a : 1 <= 2 ^ a -> rows = map (fun i => [2 ^ i]) (seq a k) ->
    fold_left (fun acc row => map2 (fun r v => if nltb v r then v else r) acc row) rows [1] = [1].
  Proof.
    intros Ha ->. revert a Ha. induction k as [|k IH]; intros a Ha; cbn [seq map fold_left map2]; auto.
    cbn [nltb NumR]. destruct (Rlt_dec (2 ^ a) 1); [lra|]. apply IH. cbn [pow]. lra.
  Qed.
  Lemma max_pow k : forall a, 
    fold_left (fun acc row => map2 (fun r v => if nltb r v then v else r) acc row) (map (fun i => [2 ^ i]) (seq (S a) k)) [2 ^ a] = [2 ^ (a + k)].
  Proof.
    induction k as [|k IH]; intros a; cbn [seq map fold_left map2]; [now rewrite Nat.add_0_r|].
    cbn [nltb NumR]. destruct (Rlt_dec (2 ^ a) (2 ^ S a)) as [|K]; [|exfalso; apply K; cbn [pow]; pose proof (pow2_pos a); lra].
    rewrite IH. do 2 f_equal. lia.
  Qed.

  Lemma doubling_min n : data_min (doubling (S n)) = Ok [1].
  Proof.
    unfold data_min. cbn [mrows doubling seq map]. f_equal. cbn [fold_left map2 pow]. 
    cbn [nltb NumR]. destruct (Rlt_dec 1 1); [lra|].
    apply (min_pow _ n 1); [cbn [pow]; lra|reflexivity].
  Qed.
  Lemma doubling_max n : data_max (doubling (S n)) = Ok [2 ^ n].
  Proof.
    unfold data_max. cbn [mrows doubling seq map]. f_equal. cbn [fold_left map2 pow].
    cbn [nltb NumR]. destruct (Rlt_dec 1 1); [lra|].
    exact (max_pow n 0).
  Qed.

  Theorem chain_depth n fuel leafsize t : (2 <= leafsize)%nat -> (0 < n)%nat ->
    tree_build B fuel leafsize (doubling n) = Some (Ok t) -> depth t = (1 + (n + 1 - leafsize))%nat.
  Proof.
    intros Ls Hn. destruct n as [|n]; [lia|]. unfold tree_build. rewrite doubling_min, doubling_max, doubling_nrows.
    replace (2 ^ n) with (1 + 2 ^ n - 1) by lra. apply chain_split; auto; lra.
  Qed.
End Chain.

Lemma doubling_wf n : mwf (doubling n).
Proof. unfold mwf. cbn [mrows doubling mcols]. apply Forall_forall. intros r Hr. apply in_map_iff in Hr. now destruct Hr as (i & <- & _). Qed.

Lemma pow2_inj i j : (2 ^ i = 2 ^ j)%R -> i = j.
Proof.
  intros E. destruct (Nat.lt_trichotomy i j) as [K|[K|K]]; auto; apply (Rlt_pow 2) in K; lra.
Qed.

Lemma doubling_distinct n leafsize : 2 <= leafsize ->
  forall S m, equal_rows (doubling n) S m -> 0 < m -> m < leafsize.
Proof.
  intros Ls S m (ND & L & I & E) Hm. destruct S as [|a [|b S]]; cbn [length] in L; try lia. exfalso.
  assert (Ia : a < n) by (rewrite <- (doubling_nrows n); apply I; now left).
  assert (Ib : b < n) by (rewrite <- (doubling_nrows n); apply I; right; now left).
  specialize (E a b (or_introl eq_refl) (or_intror (or_introl eq_refl))).
  rewrite !doubling_row in E by auto. injection E as E. apply pow2_inj in E. subst b.
  inversion ND. apply H1. now left.
Qed.

Theorem chain_reached n leafsize : 2 <= leafsize -> 0 < n ->
  (mwf (doubling n) /\ nrows (doubling n) = n) /\
  (exists fuel t, tree_build kd_split fuel leafsize (doubling n) = Some (Ok t) /\ depth t = 1 + (n + 1 - leafsize)) /\
  (exists fuel t, tree_build ball_split fuel leafsize (doubling n) = Some (Ok t) /\ depth t = 1 + (n + 1 - leafsize)).
Proof.
  intros Ls Hn. split; [split; [apply doubling_wf|apply doubling_nrows]|].
  assert (Hn' : 0 < nrows (doubling n)) by now rewrite doubling_nrows.
  destruct (finishes_iff (doubling n) Nat.lt_0_1 (doubling_wf n) Hn' leafsize) as (K1 & K2).
  destruct (proj2 K1 (doubling_distinct n leafsize Ls)) as (f1 & t1 & E1).
  destruct (proj2 K2 (doubling_distinct n leafsize Ls)) as (f2 & t2 & E2).
  split; [exists f1, t1|exists f2, t2]; (split; [assumption|]); eapply chain_depth; eauto.
Qed.

(** A concrete tree that is built. *)
Lemma ex_tree_sizes : 0 < nrows ex_points /\ exists fuel t, tree_build kd_split fuel 3 ex_points = Some (Ok t).
Proof. destruct ex_sound as (_ & _ & A & B). auto. Qed.
