(** * k-means: training runs and initialisers *)
From Coq Require Import List Arith Lia Bool Reals Lra Permutation.
From Verif Require Import Base BaseLemmas Num NumX NumOrd ArgLemmas Linalg LinalgR Euclid Spec_Calc CalcR Model_KMeans Spec_KNN Spec_KMeans Spec_Transforms Proof_KMeans.
Import ListNotations.

(** ** Runs *)
Lemma closest_to_step (X C : matrix R) k : mwf X -> mwf C -> mcols C = mcols X -> nrows C = k -> 0 < k ->
  exists a ds C', find_closest_centroids C X = Ok (a, ds) /\ update_centroids k X a = Ok C' /\ mwf C' /\
    lloyd_step_spec X k a C C'.
Proof.
  intros WX WC W <- K.
  destruct (find_closest_spec C X W K) as (idx & Ei & H); [reflexivity|].
  destruct (Forall2_nth_iff _ _ _ 0 [] H) as [L Hn].
  destruct (update_means X idx (nrows C) L) as (C' & Eu & WC' & K' & W' & Mn).
  eexists _, _, C'. split; [exact Ei|]. split; [exact Eu|]. split; auto. split; [exact L|]. split; [|auto].
  intros i Hi. specialize (Hn i ltac:(rewrite L; exact Hi)). cbv beta in Hn. apply is_closest_R_iff in Hn.
  eapply euclid_closest; [|exact Hn]. intros c Hc. split.
  - apply sqdist_euclid; [rewrite mwf_row; auto|now apply mwf_row].
  - unfold euclid. apply sqrt_pos.
Qed.

Lemma last_centres_cons C a C' l : last_centres C ((a, C') :: l) = last_centres C' l.
Proof.
  unfold last_centres. cbn [map snd]. destruct l as [|p l]; [reflexivity|]. cbn [map].
  assert (Q : forall (t : list (matrix R)) x y z, last (x :: t) y = last (x :: t) z).
  { induction t as [|b t IH]; intros; [reflexivity|]. change (last (b :: t) y = last (b :: t) z). apply IH. }
  change (last (snd p :: map snd l) C = last (snd p :: map snd l) C'). apply Q.
Qed.

Lemma nonempty_dec a k : {nonempty a k} + {~ nonempty a k}.
Proof.
  destruct (forallb (fun c => if in_dec Nat.eq_dec c a then true else false) (seq 0 k)) eqn:E.
  - left. intros c Hc. rewrite forallb_forall in E. specialize (E c ltac:(apply in_seq; lia)). now destruct in_dec.
  - right. intros H. rewrite <- not_true_iff_false in E. apply E. apply forallb_forall. intros c Hc. apply in_seq in Hc.
    destruct in_dec; auto. exfalso. apply n, H. lia.
Qed.

Lemma lloyd_run_spec tol (X : matrix R) k : mwf X -> 0 < k -> forall iters cost C, mwf C -> mcols C = mcols X -> nrows C = k ->
  exists C' l, lloyd tol k X iters cost C = Ok C' /\ mwf C' /\ nrows C' = k /\ mcols C' = mcols X /\ length l <= iters /\ lloyd_run X k C l /\
    (C' = last_centres C l \/ exists a C2, lloyd_step_spec X k a (last_centres C l) C2 /\ ~ nonempty a k).
Proof.
  intros WX K. induction iters as [|iters IH]; intros cost C WC W KC.
  - exists C, []. cbn [lloyd]. repeat split; auto. constructor.
  - destruct (closest_to_step X C k WX WC W KC K) as (a & ds & C1 & E1 & E2 & WC1 & St).
    destruct (St) as (_ & _ & K1 & W1 & _).
    cbn [lloyd]. rewrite E1. cbn [rbind]. rewrite E2. cbn [rbind].
    destruct (nonempty_dec a k) as [NE|NE].
    + destruct (nltb (nabs (nsub cost (vsum ds))) tol).
      * exists C1, [(a, C1)]. repeat split; auto; [cbn; lia|]. econstructor; eauto. constructor.
      * destruct (IH (vsum ds) C1 WC1 W1 K1) as (C' & l & EL & A1 & A2 & A3 & Len & Run & Fin').
        exists C', ((a, C1) :: l). repeat split; auto; [cbn; lia|econstructor; eauto|].
        rewrite last_centres_cons. exact Fin'.
    + assert (Q : exists C', (if nltb (nabs (nsub cost (vsum ds))) tol then Ok C1 else lloyd tol k X iters (vsum ds) C1) = Ok C' /\ mwf C' /\ nrows C' = k /\ mcols C' = mcols X).
      { destruct (nltb _ tol); [exists C1; auto|]. destruct (IH (vsum ds) C1 WC1 W1 K1) as (C' & l & EL & A1 & A2 & A3 & _). exists C'. auto. }
      destruct Q as (C' & Q & A1 & A2 & A3). exists C', []. repeat split; auto; [cbn; lia|constructor|].
      right. exists a, C1. auto.
Qed.

Theorem train_run (tol : R) (m : KMeans R) (X C0 : matrix R) : mwf X -> mwf C0 -> mcols C0 = mcols X -> nrows C0 = km_k m -> 0 < km_k m <= nrows X ->
  exists m' C l, km_train tol (Ok C0) m X = (m', Ok tt) /\ km_centroids m' = Some C /\ mwf C /\ nrows C = km_k m /\ mcols C = mcols X /\
    length l <= km_iters m /\ lloyd_run X (km_k m) C0 l /\
    (C = last_centres C0 l \/ exists a C2, lloyd_step_spec X (km_k m) a (last_centres C0 l) C2 /\ ~ nonempty a (km_k m)).
Proof.
  intros WX WC W K [P LE]. unfold km_train, init_centroids.
  assert (E : (nrows X <? km_k m) = false) by (apply Nat.ltb_ge; lia). rewrite E. cbn [rbind]. rewrite K, W, !Nat.eqb_refl. cbn [negb].
  destruct (lloyd_run_spec tol X (km_k m) WX P (km_iters m) nzero C0 WC W K) as (C & l & EL & A1 & A2 & A3 & Len & Run & Fin').
  rewrite EL. exists (km_set m C), C, l. repeat split; auto.
Qed.

(** Objectives along a run. *)
Lemma entry_row (X : matrix R) i j : entry X i j = nth j (nth i (mrows X) []) 0%R. Proof. reflexivity. Qed.
Lemma euclid_sq n a b : (euclid n a b ^ 2 = sumR n (fun j => (nth j a 0 - nth j b 0) ^ 2))%R.
Proof.
  unfold euclid. rewrite fold_rsum, rsum_seq, pow2_sqrt; auto. apply sumR_ge0. intros. apply pow2_ge_0.
Qed.
Lemma closest_objective (X C : matrix R) k a b : (forall i, i < nrows X ->
   is_closest_R k (fun c => euclid (mcols X) (nth i (mrows X) []) (nth c (mrows C) [])) (nth i a 0)) ->
  length b = nrows X -> Forall (fun c => c < k) b ->
  (objective X C a <= objective X C b)%R.
Proof.
  intros H L HB. apply sumR_le. intros i Hi. destruct (H i Hi) as (_ & B & _).
  rewrite Forall_forall in HB. specialize (B (nth i b 0) ltac:(apply HB, nth_In; lia)).
  pose proof (euclid_sq (mcols X) (nth i (mrows X) []) (nth (nth i a 0) (mrows C) [])) as E1.
  pose proof (euclid_sq (mcols X) (nth i (mrows X) []) (nth (nth i b 0) (mrows C) [])) as E2.
  unfold entry. rewrite <- E1, <- E2. apply pow_incr. split; auto. unfold euclid. apply sqrt_pos.
Qed.
Lemma step_assign X k a C C' : lloyd_step_spec X k a C C' -> Forall (fun c => c < k) a.
Proof.
  intros (L & H & _). apply Forall_forall. intros c Hc. destruct (In_nth _ _ 0 Hc) as (i & Hi & <-). apply (H i ltac:(lia)).
Qed.
Theorem step_decreases (X C C' C'' : matrix R) k a a' : lloyd_step_spec X k a C C' -> lloyd_step_spec X k a' C' C'' ->
  (objective X C' a' <= objective X C' a /\ objective X C' a <= objective X C a)%R.
Proof.
  intros S1 S2. pose proof (step_assign _ _ _ _ _ S1) as A1. destruct S1 as (L1 & H1 & K1 & W1 & M1). destruct S2 as (L2 & H2 & _). split.
  - eapply closest_objective; eauto.
  - apply (means_objective X C C' a k); auto. intros c Hc. destruct (in_dec Nat.eq_dec c a); auto.
Qed.
Theorem run_decreases (X : matrix R) k C0 l : lloyd_run X k C0 l -> forall a0 a C2, length a0 = nrows X -> Forall (fun c => c < k) a0 ->
  lloyd_step_spec X k a (last_centres C0 l) C2 ->
  (objective X (last_centres C0 l) a <= objective X C0 a0)%R.
Proof.
  induction 1 as [C|C b C' l St NE R IH]; intros a0 a C2 L0 A0 Sf.
  - destruct Sf as (_ & H & _). eapply closest_objective; eauto.
  - rewrite last_centres_cons in *. pose proof (step_assign _ _ _ _ _ St) as Ab. pose proof St as (Lb & Hb & _).
    eapply Rle_trans; [eapply (IH b a C2); eauto|].
    eapply Rle_trans; [|eapply closest_objective; eauto].
    apply (means_objective X C C' b k); auto. intros c Hc. destruct (in_dec Nat.eq_dec c b); auto. left. now apply St.
Qed.

(** ** Forgy *)
Lemma existsb_in r l : existsb (Nat.eqb r) l = true <-> In r l.
Proof.
  rewrite existsb_exists. split.
  - intros (x & Hx & E). apply Nat.eqb_eq in E. congruence.
  - intros H. exists r. split; auto. apply Nat.eqb_refl.
Qed.
Lemma forgy_loop_valid fuel k n : forall ch o, NoDup ch -> Forall (fun i => i < n) ch -> length ch <= k ->
  outcome (forgy_loop fuel k n ch) o ->
  match o with
  | Some (Some l) => NoDup l /\ Forall (fun i => i < n) l /\ length l = k
  | Some None => True
  | None => n = 0 /\ 0 < k
  end.
Proof.
  induction fuel as [|fuel IH]; intros ch o ND LT LE H; cbn [forgy_loop] in H.
  - destruct (Nat.ltb_spec (length ch) k); inversion H; subst; auto. split; auto. split; auto. lia.
  - destruct (Nat.ltb_spec (length ch) k).
    + apply outcome_bind in H. destruct H as [(r & Hr & Ho)|[-> Hn]].
      * unfold gen_range in Hr. inversion Hr as [|? ? i ? Hi Hi'| |]; subst. inversion Hi'; subst.
        destruct (existsb (Nat.eqb r) ch) eqn:E; [eapply IH; eauto|].
        eapply IH; [..|exact Ho].
        -- apply NoDup_snoc; auto. rewrite <- existsb_in, E. discriminate.
        -- apply Forall_app; auto.
        -- rewrite app_length. cbn. lia.
      * inversion Hn as [|? ? i ? Hi Hi'| |]; subst; [inversion Hi'|]. split; auto. lia.
    + inversion H; subst. split; auto. split; auto. lia.
Qed.

Lemma sumR_split_in n (l : list nat) (A B : R) : NoDup l -> Forall (fun i => i < n) l ->
  sumR n (fun i => if existsb (Nat.eqb i) l then A else B) = (INR (length l) * A + (INR n - INR (length l)) * B)%R.
Proof.
  intros ND LT.
  assert (E : sumR n (fun i => if existsb (Nat.eqb i) l then 1%R else 0%R) = INR (length l)).
  { rewrite <- rsum_seq. rewrite <- (rsum_map_filter (fun i => existsb (Nat.eqb i) l) (fun _ => 1%R)). rewrite rsum_ones. f_equal.
    apply Permutation_length. apply NoDup_Permutation; auto.
    - apply NoDup_filter, seq_NoDup.
    - intros x. rewrite filter_In, existsb_in, in_seq. rewrite Forall_forall in LT. split; [tauto|]. intros H. specialize (LT x H). split; auto. lia. }
  rewrite (sumR_ext n _ (fun i => (B + (A - B) * (if existsb (Nat.eqb i) l then 1 else 0))%R)).
  2:{ intros i _. destruct existsb; ring. }
  rewrite sumR_plus, sumR_scal, sumR_const, E. ring.
Qed.

Definition unfinished (o : option (list nat)) : bool := match o with None => true | Some _ => false end.
Lemma forgy_prob fuel k n : k <= n -> forall ch, NoDup ch -> Forall (fun i => i < n) ch -> length ch <= k ->
  (prob (forgy_loop fuel k n ch) unfinished <= 2 ^ (k - length ch) * (1 - 1 / (2 * INR n)) ^ fuel)%R.
Proof.
  intros KN. induction fuel as [|fuel IH]; intros ch ND LT LE; unfold prob; cbn [forgy_loop].
  - destruct (Nat.ltb_spec (length ch) k) as [H|H]; cbn [expect unfinished ind]; rewrite pow_O.
    + rewrite Rmult_1_r. apply pow_R1_Rle. lra.
    + rewrite Rmult_1_r. apply pow_le. lra.
  - destruct (Nat.ltb_spec (length ch) k) as [H|H].
    + rewrite expect_bind. unfold gen_range. cbn [expect].
      assert (Pn : (1 <= INR n)%R) by (apply (le_INR 1); lia).
      set (r := (1 - 1 / (2 * INR n))%R) in *.
      assert (Pr : (0 < r)%R).
      { unfold r. assert (1 / (2 * INR n) < 1)%R; [|lra]. apply Rmult_lt_reg_r with (2 * INR n)%R; [lra|]. field_simplify; lra. }
      set (j := k - length ch). assert (Ej : k - length ch = S (j - 1)) by (unfold j; lia).
      set (A := (2 ^ j * r ^ fuel)%R). set (B := (2 ^ (j - 1) * r ^ fuel)%R).
      assert (PB : (0 <= B)%R) by (unfold B; apply Rmult_le_pos; apply pow_le; lra).
      assert (EA : A = (2 * B)%R). { unfold A, B, j. rewrite Ej. rewrite <- tech_pow_Rmult. replace (S (j - 1) - 1) with (j - 1) by lia. unfold j. ring. }
      assert (U : (sumR n (fun i => expect (if existsb (Nat.eqb i) ch then forgy_loop fuel k n ch else forgy_loop fuel k n (ch ++ [i])) (fun a => ind (unfinished a)))
                  <= sumR n (fun i => if existsb (Nat.eqb i) ch then A else B))%R).
      { apply sumR_le. intros i Hi. destruct (existsb (Nat.eqb i) ch) eqn:E.
        - apply (IH ch ND LT LE).
        - eapply Rle_trans; [apply (IH (ch ++ [i]))|].
          + apply NoDup_snoc; auto. rewrite <- existsb_in, E. discriminate.
          + apply Forall_app; auto.
          + rewrite app_length. cbn. lia.
          + rewrite app_length. cbn [length]. unfold B, j. replace (k - (length ch + 1)) with (k - length ch - 1) by lia. lra. }
      rewrite (sumR_split_in n ch A B ND LT) in U.
      change (2 ^ j * r ^ S fuel)%R with (2 ^ j * (r * r ^ fuel))%R.
      replace (2 ^ j * (r * r ^ fuel))%R with (A * r)%R by (unfold A; ring).
      apply Rmult_le_reg_r with (INR n); [lra|]. unfold Rdiv at 1. rewrite Rmult_assoc, Rinv_l, Rmult_1_r by lra.
      eapply Rle_trans; [exact U|]. rewrite EA. replace (2 * B * r * INR n)%R with (B * (2 * INR n - 1))%R by (unfold r; field; lra).
      assert (INR (length ch) <= INR n - 1)%R.
      { replace (INR n - 1)%R with (INR (n - 1)) by (rewrite minus_INR by lia; cbn; lra). apply le_INR. lia. }
      assert (0 <= B * (INR n - 1 - INR (length ch)))%R by (apply Rmult_le_pos; lra). lra.
    + cbn [expect unfinished ind]. apply Rmult_le_pos; apply pow_le; [lra|].
      destruct n as [|n].
      * cbn. unfold Rdiv. rewrite Rmult_0_r, Rinv_0. lra.
      * assert (Pn : (1 <= INR (S n))%R) by (apply (le_INR 1); lia).
        assert (1 / (2 * INR (S n)) <= 1)%R; [|lra]. apply Rmult_le_reg_r with (2 * INR (S n))%R; [lra|]. unfold Rdiv. rewrite Rmult_assoc, Rinv_l; lra.
Qed.

Theorem forgy_spec {F} (X : matrix F) fuel k : 
  (forall r, outcome (forgy fuel k X) (Some (Some r)) -> exists chosen C, r = Ok C /\ distinct_rows X k chosen C) /\
  (k <= nrows X -> ~ outcome (forgy fuel k X) None) /\
  (k <= nrows X -> (prob (forgy fuel k X) (fun o => match o with None => true | _ => false end) <= 2 ^ k * (1 - 1 / (2 * INR (nrows X))) ^ fuel)%R).
Proof.
  split; [|split].
  - intros r H. unfold forgy in H. apply outcome_bind in H. destruct H as [(o & Ho & H)|[? _]]; [|discriminate].
    destruct o as [ch|]; inversion H; subst.
    apply forgy_loop_valid in Ho; [|constructor|constructor|cbn; lia]. destruct Ho as (A & B & C).
    exists ch. rewrite select_rows_spec by auto. eexists. split; [reflexivity|]. repeat split; auto.
  - intros K H. unfold forgy in H. apply outcome_bind in H. destruct H as [(o & Ho & H)|[_ H]]; [inversion H|].
    apply forgy_loop_valid in H; [|constructor|constructor|cbn; lia]. lia.
  - intros K. unfold forgy, prob. rewrite expect_bind. cbn [expect].
    pose proof (forgy_prob fuel k (nrows X) K [] ltac:(constructor) ltac:(constructor) ltac:(cbn; lia)) as Q.
    cbn [length] in Q. rewrite Nat.sub_0_r in Q. eapply Rle_trans; [|exact Q]. apply Req_le. unfold prob. apply expect_ext.
    intros [ch|] _; reflexivity.
Qed.

(** ** Random partition *)
Lemma concat_upd {A} (a a' : list (list A)) idx v i : nth_error a idx = Some v -> upd a idx (v ++ [i]) = Some a' ->
  Permutation (concat a') (i :: concat a) /\ length a' = length a /\ (Forall (fun c => c <> []) a -> Forall (fun c => c <> []) a').
Proof.
  revert idx a'. induction a as [|w a IH]; intros [|idx] a' E U; cbn in *; try discriminate.
  - injection E as ->. injection U as <-. cbn. split; [|split]; auto.
    + rewrite <- app_assoc. cbn. symmetry. apply Permutation_middle.
    + intros H. inversion H; subst. constructor; auto. now destruct v.
  - destruct (upd a idx (v ++ [i])) as [b|] eqn:EU; [|discriminate]. injection U as <-.
    destruct (IH idx b E EU) as (P & L & Q). cbn. split; [|split].
    + rewrite P. symmetry. apply Permutation_middle.
    + lia.
    + intros H. inversion H; subst. constructor; auto.
Qed.
Lemma concat_single n s : concat (map (fun i : nat => [i]) (seq s n)) = seq s n.
Proof. revert s. induction n; intros; cbn; f_equal; auto. Qed.
Lemma partition_valid k n : 0 < k <= n -> forall o, outcome (partition_loop k n) o -> exists a, o = Some a /\ splits n a /\ length a = k.
Proof.
  intros K o H. unfold partition_loop in H.
  apply (rnd_for_invariant (fun i a => splits i a /\ length a = k)) in H.
  - replace (k + (n - k)) with n in H by lia. destruct H as (a & A & B & C). exists a. auto.
  - split; [|now rewrite map_length, seq_length]. split.
    + now rewrite concat_single.
    + apply Forall_forall. intros c Hc. apply in_map_iff in Hc. destruct Hc as (i & <- & _). discriminate.
  - intros i a Hi [[P NE] L] o' Ho'. apply outcome_bind in Ho'. destruct Ho' as [(idx & Hx & Ho')|[-> Hn]].
    + unfold gen_range in Hx. inversion Hx as [|? ? x ? Hlt Hx'| |]; subst. inversion Hx'; subst.
      destruct (nth_error a idx) as [v|] eqn:E. 2:{ apply nth_error_None in E. lia. }
      cbn [rnd_opt rnd_bind] in Ho'. destruct (upd a idx (v ++ [i])) as [a'|] eqn:EU.
      2:{ apply upd_None in EU. lia. }
      cbn in Ho'. inversion Ho'; subst. exists a'. split; auto. destruct (concat_upd _ _ _ _ _ E EU) as (P' & L' & Q).
      split; [|lia]. split; auto. rewrite seq_S, Nat.add_0_l. rewrite P'. eapply Permutation_trans; [apply perm_skip, P|]. apply Permutation_cons_append.
    + unfold gen_range in Hn. inversion Hn as [|? ? x ? Hlt Hx'| |]; subst; [inversion Hx'|]. lia.
Qed.
Lemma mean_at (X : matrix R) v j : j < mcols X -> v <> [] ->
  (nth j (col_mean (Mat (map (fun i => nth i (mrows X) []) v) (mcols X))) 0 * INR (length v) = fold_right Rplus 0 (map (fun i => entry X i j) v))%R.
Proof.
  intros Hj NE. unfold col_mean. cbn [mcols]. match goal with |- context [map ?f (seq _ _)] => set (g := f) end.
  rewrite (nth_indep _ 0%R (g 0)) by (now rewrite map_length, seq_length). rewrite map_nth, seq_nth by auto. cbn [plus]. unfold g.
  unfold nrows. cbn [mrows]. rewrite map_length. cbn [ndiv nofnat NumR]. rewrite vsum_R. change (fold_right Rplus 0%R (map (fun i => entry X i j) v)) with (rsum (map (fun i => entry X i j) v)). unfold col. cbn [mrows]. rewrite map_map.
  cbn [nzero NumR]. unfold entry. field. apply not_0_INR. now destruct v.
Qed.
Theorem partition_spec (X : matrix R) k : 0 < k <= nrows X -> forall o, outcome (random_partition k X) o ->
  exists classes C, o = Some (Ok C) /\ splits (nrows X) classes /\ length classes = k /\ mwf C /\ nrows C = k /\ mcols C = mcols X /\
    forall c, c < k -> is_mean_at X C c (nth c classes []).
Proof.
  intros K o H. unfold random_partition in H. apply outcome_bind in H. destruct H as [(a & Ha & H)|[-> H]].
  - destruct (partition_valid _ _ K _ Ha) as (a' & E & SP & L). injection E as <-.
    assert (LT : Forall (Forall (fun i => i < nrows X)) a).
    { apply Forall_forall. intros v Hv. apply Forall_forall. intros i Hi.
      assert (Q : In i (seq 0 (nrows X))). { eapply Permutation_in; [apply SP|]. apply in_concat. eauto. } apply in_seq in Q. lia. }
    set (mn := fun v => col_mean (Mat (map (fun i => nth i (mrows X) []) v) (mcols X))).
    assert (E : rmap (fun v => let? m := select_rows X v in Ok (col_mean m)) a = Ok (map mn a)).
    { apply rmap_ok. intros v Hv. rewrite Forall_forall in LT. rewrite select_rows_spec by auto. reflexivity. }
    inversion H; subst o. rewrite E. cbn [rbind]. exists a, (Mat (map mn a) (mcols X)). split; auto. split; auto. split; auto.
    split; [|split; [|split]]; auto.
    + unfold mwf. cbn. apply Forall_forall. intros r Hr. apply in_map_iff in Hr. destruct Hr as (v & <- & _). unfold mn, col_mean.
      now rewrite map_length, seq_length.
    + unfold nrows. cbn. now rewrite map_length.
    + intros c Hc j Hj. unfold entry at 1. cbn [mrows].
      rewrite (nth_indep _ [] (mn [])) by (rewrite map_length; lia). rewrite map_nth. unfold mn. rewrite mean_at; auto.
      destruct SP as [_ NE]. rewrite Forall_forall in NE. apply NE, nth_In. lia.
  - destruct (partition_valid _ _ K _ H) as (a' & E & _). discriminate.
Qed.

(** ** k-means++ *)
Lemma sample_loop_pos rand l : forall i t, (t <= rand)%R -> (forall p, In p l -> (0 <= p)%R) ->
  (forall j, sample_loop rand i t l = Ok j -> i <= j < i + length l /\ (0 < nth (j - i) l 0)%R) /\
  ((rand < t + rsum l)%R -> exists j, sample_loop rand i t l = Ok j).
Proof.
  induction l as [|p l IH]; intros i t Ht Hp; cbn [sample_loop].
  - split; [discriminate|]. cbn. intros. exfalso. lra.
  - cbn [nadd NumR]. destruct (nltb rand (t + p)%R) eqn:E.
    + split; [|eauto]. intros j [= <-]. apply nltb_R' in E. cbn [length]. split; [lia|]. rewrite Nat.sub_diag. cbn. lra.
    + apply nltb_R_false in E. destruct (IH (S i) (t + p)%R E) as [A B]; [intros; apply Hp; now right|]. split.
      * intros j Hj. destruct (A j Hj) as [A1 A2]. cbn [length]. split; [lia|]. replace (j - i) with (S (j - S i)) by lia. exact A2.
      * intros H. apply B. cbn in H. lra.
Qed.
Lemma rsum_pos_exists l : (forall p, In p l -> (0 <= p)%R) -> (0 < rsum l)%R -> exists p, In p l /\ (0 < p)%R.
Proof.
  induction l as [|p l IH]; cbn; intros H P; [lra|]. destruct (Rlt_le_dec 0 p); [exists p; auto|].
  destruct IH as (q & A & B); auto. { lra. } exists q. auto.
Qed.
Lemma rsum_exists_pos l p : (forall p, In p l -> (0 <= p)%R) -> In p l -> (0 < p)%R -> (0 < rsum l)%R.
Proof.
  induction l as [|q l IH]; cbn; intros H I P; [easy|].
  assert (0 <= rsum l)%R by (apply rsum_ge0, Forall_forall; intros; apply H; now right).
  assert (0 <= q)%R by (apply H; now left). destruct I as [->|I]; [lra|]. assert (0 < rsum l)%R by (apply IH; auto). lra.
Qed.
Lemma sqdist_d2 (c x : list R) : sqdist c x = d2 c x.
Proof. reflexivity. Qed.

Section KPP.
  Context (X : matrix R) (WX : mwf X).
  Let row i := nth i (mrows X) [].

  Lemma dist_spec chosen : chosen <> [] -> Forall (fun i => i < nrows X) chosen ->
    exists idx ds, find_closest_centroids (Mat (map row chosen) (mcols X)) X = Ok (idx, ds) /\ length ds = nrows X /\
      forall i, i < nrows X -> (0 <= nth i ds 0)%R /\ ((0 < nth i ds 0)%R <-> ~ In (row i) (map row chosen)).
  Proof.
    intros NE LT. set (C := Mat (map row chosen) (mcols X)).
    assert (KC : nrows C = length chosen) by (unfold nrows, C; cbn; now rewrite map_length).
    destruct (find_closest_spec C X) as (idx & E & H); auto.
    { rewrite KC. destruct chosen; [easy|cbn; lia]. }
    destruct (Forall2_nth_iff _ _ _ 0 [] H) as [L Hn].
    eexists idx, _. split; [exact E|]. split; [rewrite map2_length, L, Nat.min_id; reflexivity|].
    intros i Hi. rewrite (map2_nth _ _ _ _ 0 []); [|rewrite L; exact Hi|exact Hi].
    specialize (Hn i ltac:(rewrite L; exact Hi)). cbv beta in Hn. apply is_closest_R_iff in Hn. destruct Hn as (A & B & _).
    rewrite sqdist_d2. split; [apply dot_ge0|]. split.
    - intros P IN. cbn [mrows C] in IN. destruct (In_nth _ _ [] IN) as (c & Hc & Ec). rewrite map_length in Hc.
      assert (Hc' : c < nrows C) by (rewrite KC; auto). specialize (B c Hc'). cbv beta in B. rewrite !sqdist_d2 in B. cbn [mrows C] in B. rewrite Ec in B.
      change (d2 (row i) (nth i (mrows X) [])) with (d2 (row i) (row i)) in B. rewrite d2_self in B. apply (Rlt_irrefl 0). eapply Rlt_le_trans; [exact P|exact B].
    - intros NI. pose proof (dot_ge0 (vsub (nth (nth i idx 0) (mrows C) []) (nth i (mrows X) []))) as P0. fold (d2 (nth (nth i idx 0) (mrows C) []) (nth i (mrows X) [])) in P0.
      destruct P0 as [P0|P0]; auto. exfalso. apply NI. symmetry in P0.
      apply d2_zero in P0.
      + unfold row at 1. rewrite <- P0. apply nth_In. exact A.
      + transitivity (mcols X); [|symmetry; now apply mwf_row]. change (mrows C) with (map row chosen).
        rewrite (nth_indep _ [] (row 0)) by (rewrite map_length; rewrite <- KC; exact A).
        rewrite map_nth. unfold row. apply mwf_row; auto. rewrite Forall_forall in LT. apply LT, nth_In. rewrite <- KC. exact A.
  Qed.

  Lemma kpp_loop_spec us : Forall (fun u => 0 <= u < 1)%R us -> forall chosen, chosen <> [] -> Forall (fun i => i < nrows X) chosen -> NoDup (map row chosen) ->
    (forall ch cens, kpp_loop X us chosen (map row chosen) = Ok (ch, cens) ->
       cens = map row ch /\ Forall (fun i => i < nrows X) ch /\ NoDup (map row ch) /\ length ch = length chosen + length us) /\
    (forall e, kpp_loop X us chosen (map row chosen) <> Err e) /\
    (has_distinct X (length chosen + length us) -> exists p, kpp_loop X us chosen (map row chosen) = Ok p).
  Proof.
    induction 1 as [|u us Hu Hus IH]; intros chosen NE LT ND; cbn [kpp_loop].
    - split; [|split; [discriminate|eauto]]. intros ch cens [= <- <-]. cbn. repeat split; auto.
    - destruct (dist_spec chosen NE LT) as (idx & ds & E & L & P). rewrite E. cbn [rbind].
      assert (FA : forallb nfinite ds = true) by (apply forallb_forall; auto). rewrite FA. cbn [negb].
      assert (NN : forall p, In p ds -> (0 <= p)%R). { intros p Hp. destruct (In_nth _ _ 0%R Hp) as (i & Hi & <-). apply P. lia. }
      assert (NX : 0 < nrows X). { destruct chosen as [|c0 ch0]; [easy|]. inversion LT; subst. lia. }
      unfold sample_discretely. assert (E0 : (0 <? length ds) = true) by (apply Nat.ltb_lt; lia). rewrite E0. cbn [rassert]. rewrite vsum_R.
      destruct (nltb nzero (rsum ds)) eqn:ES; cbn [rassert].
      + apply nltb_R' in ES. cbn [nzero NumR] in ES.
        assert (R0 : (0 <= u * rsum ds < rsum ds)%R). { split; [apply Rmult_le_pos; lra|]. rewrite <- (Rmult_1_l (rsum ds)) at 2. apply Rmult_lt_compat_r; lra. }
        destruct (sample_loop_pos (u * rsum ds) ds 0 0%R) as [SA SB]; [lra|auto|].
        destruct (SB ltac:(lra)) as (nx & Ex). cbn [nmul nzero NumR]. rewrite Ex. cbn [rbind].
        destruct (SA nx Ex) as [Hx1 Hx2]. rewrite Nat.sub_0_r in Hx2. assert (Hx : nx < nrows X) by lia.
        apply (P nx Hx) in Hx2.
        unfold ridx. rewrite (nth_error_nth' _ []) by (exact Hx). cbn [rbind].
        replace (map row chosen ++ [nth nx (mrows X) []]) with (map row (chosen ++ [nx])) by (rewrite map_app; reflexivity).
        destruct (IH (chosen ++ [nx])) as (I1 & I2 & I3).
        * now destruct chosen.
        * apply Forall_app. auto.
        * rewrite map_app. apply NoDup_snoc; auto.
        * rewrite app_length in *. cbn [length] in *. replace (length chosen + S (length us)) with (length chosen + 1 + length us) by lia. auto.
      + split; [discriminate|]. split; [discriminate|]. intros (D & LD & LTD & DD). exfalso. apply nltb_R_false in ES. cbn [nzero NumR] in ES.
        assert (INC : incl (map row D) (map row chosen)).
        { intros r Hr. apply in_map_iff in Hr. destruct Hr as (i & <- & Hi). rewrite Forall_forall in LTD. specialize (LTD i Hi).
          destruct (in_dec (list_eq_dec Req_EM_T) (row i) (map row chosen)) as [|NI]; auto. exfalso.
          apply (P i LTD) in NI. assert (0 < rsum ds)%R; [|lra]. apply (rsum_exists_pos ds (nth i ds 0%R)); auto. apply nth_In. lia. }
        apply NoDup_incl_length in INC; [|exact DD]. rewrite !map_length in INC. cbn [length] in LD. lia.
  Qed.

  Theorem kpp_spec k first us : first < nrows X -> length us = k - 1 -> 0 < k -> Forall (fun u => 0 <= u < 1)%R us ->
    (forall chosen C, kpp X k first us = Ok (chosen, C) -> distinct_rows X k chosen C /\ different_rows X chosen) /\
    (has_distinct X k -> exists p, kpp X k first us = Ok p) /\
    (~ has_distinct X k -> kpp X k first us = Panic).
  Proof.
    intros Hf Lu K Hu. unfold kpp. unfold ridx. rewrite (nth_error_nth' _ []) by (exact Hf). cbn [rbind].
    destruct (kpp_loop_spec us Hu [first]) as (A & B & C); [discriminate|auto|repeat constructor; auto|].
    cbn [map length] in *. unfold row in A, B, C. replace (1 + length us) with k in * by lia.
    assert (A' : forall ch cens, kpp_loop X us [first] [nth first (mrows X) []] = Ok (ch, cens) -> length cens = k /\ distinct_rows X k ch (Mat cens (mcols X)) /\ different_rows X ch).
    { intros ch cens E. destruct (A _ _ E) as (-> & LT & ND & L). split; [now rewrite map_length|]. split; [|exact ND].
      split; [apply NoDup_map_inv in ND; exact ND|]. repeat split; auto. }
    destruct (kpp_loop X us [first] [nth first (mrows X) []]) as [[ch cens]|e|] eqn:E; cbn [rbind].
    - destruct (A' _ _ eq_refl) as (L & D1 & D2). rewrite L, Nat.eqb_refl. cbn [rassert]. split; [|split].
      + intros c0 C0 [= <- <-]. auto.
      + eauto.
      + intros NH. exfalso. apply NH. exists ch. destruct D1 as (_ & L1 & L2 & _). auto.
    - exfalso. now apply (B e).
    - split; [discriminate|]. split; auto. intros H. destruct (C H) as (p & Ep). discriminate.
  Qed.
End KPP.

Theorem train_checks {F} {N : Num F} (tol : F) init (m : KMeans F) (X : matrix F) :
  (nrows X < km_k m -> km_train tol init m X = (m, Err InvalidData)) /\
  (forall e, km_k m <= nrows X -> init = Err e -> km_train tol init m X = (m, Err e)) /\
  (forall c, km_k m <= nrows X -> init = Ok c -> nrows c <> km_k m \/ mcols c <> mcols X -> km_train tol init m X = (m, Err InvalidState)).
Proof.
  unfold km_train, init_centroids. split; [|split].
  - intros H. apply Nat.ltb_lt in H. now rewrite H.
  - intros e H ->. apply Nat.ltb_ge in H. now rewrite H.
  - intros c H -> D. apply Nat.ltb_ge in H. rewrite H. cbn [rbind].
    destruct (Nat.eqb_spec (nrows c) (km_k m)); cbn; auto. destruct (Nat.eqb_spec (mcols c) (mcols X)); cbn; auto. tauto.
Qed.
