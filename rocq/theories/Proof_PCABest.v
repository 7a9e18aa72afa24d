(** Proofs: the first directions of a singular value decomposition are jointly optimal. *)
From Coq Require Import List Arith Lia Bool Reals Lra.
From Verif Require Import Base BaseLemmas Num Linalg LinalgR Spec_Calc CalcR Proof_KMeans Proof_KMeans3 MatR Model_NNet Model_PCA Spec_PCA Proof_PCA Proof_PCA2 Spec_PCABest.
Import ListNotations.
Local Open Scope R_scope.

Lemma sq_ge0 x : 0 <= x * x. Proof. pose proof (Rle_0_sqr x). unfold Rsqr in *. lra. Qed.
Lemma sumR_S' n f : sumR (S n) f = sumR n f + f n. Proof. reflexivity. Qed.

(** ** Orthonormal bases *)
Lemma orth_le c m p V : orthonormal c m V -> (p <= m)%nat -> orthonormal c p V.
Proof. intros H L a b Ha Hb. apply H; lia. Qed.
(** Every family of [p] vectors lies in the span of at most [p] orthonormal ones. *)
Lemma gram_schmidt c p (W : nat -> nat -> R) : exists q Q, (q <= p)%nat /\ orthonormal c q Q /\
  exists D : nat -> nat -> R, forall k j, (k < c)%nat -> (j < p)%nat -> W k j = sumR q (fun l => Q k l * D l j).
Proof.
  induction p as [|p (q & Q & Lq & HQ & D & HD)].
  { exists 0%nat, (fun _ _ => 0). split; [lia|]. split; [intros a b Ha; lia|]. exists (fun _ _ => 0). intros k j _ Hj. lia. }
  set (d := coef c Q (fun k => W k p)).
  set (r := fun k => W k p - sumR q (fun l => Q k l * d l)).
  assert (RO : forall l, (l < q)%nat -> sumR c (fun k => Q k l * r k) = 0).
  { intros l Hl. unfold r. rewrite (sumR_ext c _ (fun k => Q k l * W k p - sumR q (fun l' => d l' * (Q k l * Q k l')))).
    2:{ intros k _. rewrite Rmult_minus_distr_l. f_equal. rewrite <- sumR_scal. apply sumR_ext. intros; ring. }
    rewrite sumR_minus, sumR_exch.
    rewrite (sumR_ext q _ (fun l' => if (l =? l')%nat then d l' else 0)).
    2:{ intros l' Hl'. rewrite sumR_scal, HQ by auto. destruct (l =? l')%nat; ring. }
    rewrite sumR_pick by auto. unfold d, coef. ring. }
  set (n2 := sumR c (fun k => r k * r k)).
  assert (N0 : 0 <= n2) by (apply sumR_ge0; intros; apply sq_ge0).
  destruct (Req_dec n2 0) as [Z|NZ].
  - exists q, Q. split; [lia|]. split; [exact HQ|]. exists (fun l j => if (j =? p)%nat then d l else D l j). intros k j Hk Hj.
    destruct (Nat.eqb_spec j p) as [->|Hn].
    + pose proof (sumR_zero_inv c (fun k => r k * r k) (fun k _ => sq_ge0 (r k)) Z k Hk) as E. cbn beta in E.
      apply Rsqr_0_uniq in E. unfold r in E. lra.
    + apply HD; lia.
  - assert (NP : 0 < n2) by lra. assert (SP : 0 < sqrt n2) by (apply sqrt_lt_R0; exact NP).
    assert (SS : sqrt n2 * sqrt n2 = n2) by (apply sqrt_sqrt; lra).
    exists (S q), (fun k l => if (l =? q)%nat then r k / sqrt n2 else Q k l). split; [lia|]. split.
    + intros a b Ha Hb. destruct (Nat.eqb_spec a q) as [Ea|Na], (Nat.eqb_spec b q) as [Eb|Nb].
      * subst a b. rewrite Nat.eqb_refl. rewrite (sumR_ext c _ (fun k => / n2 * (r k * r k))).
        2:{ intros k _. replace (/ n2) with (/ (sqrt n2 * sqrt n2)) by (rewrite SS; reflexivity). field. lra. }
        rewrite sumR_scal. fold n2. field. lra.
      * subst a. rewrite (sumR_ext c _ (fun k => / sqrt n2 * (Q k b * r k))) by (intros; field; lra).
        rewrite sumR_scal, RO by lia. destruct (Nat.eqb_spec q b); [lia|ring].
      * subst b. rewrite (sumR_ext c _ (fun k => / sqrt n2 * (Q k a * r k))) by (intros; field; lra).
        rewrite sumR_scal, RO by lia. destruct (Nat.eqb_spec a q); [lia|ring].
      * apply HQ; lia.
    + exists (fun l j => if (j =? p)%nat then (if (l =? q)%nat then sqrt n2 else d l) else if (l =? q)%nat then 0 else D l j).
      intros k j Hk Hj. rewrite sumR_S'. rewrite Nat.eqb_refl. destruct (Nat.eqb_spec j p) as [->|Hn].
      * rewrite (sumR_ext q _ (fun l => Q k l * d l)). 2:{ intros l Hl. destruct (Nat.eqb_spec l q); [lia|reflexivity]. }
        unfold r at 1. unfold Rdiv. rewrite Rmult_assoc, Rinv_l by lra. ring.
      * rewrite (sumR_ext q _ (fun l => Q k l * D l j)). 2:{ intros l Hl. destruct (Nat.eqb_spec l q); [lia|reflexivity]. }
        rewrite <- HD by lia. ring.
Qed.
(** What is left of a vector after projecting it. *)
Lemma rest_norm c q Q u : orthonormal c q Q ->
  sumR c (fun k => (u k - sumR q (fun l => Q k l * coef c Q u l)) ^ 2) = sumR c (fun k => u k * u k) - sumR q (fun l => coef c Q u l * coef c Q u l).
Proof.
  intros HQ. set (w := coef c Q u).
  rewrite (sumR_ext c _ (fun k => (u k * u k - 2 * (u k * sumR q (fun l => Q k l * w l))) + sumR q (fun l => Q k l * w l) * sumR q (fun l => Q k l * w l))) by (intros; ring).
  rewrite sumR_plus, sumR_minus, sumR_scal, (combo _ _ _ _ _ HQ).
  assert (X : sumR c (fun k => u k * sumR q (fun l => Q k l * w l)) = sumR q (fun l => w l * w l)).
  { rewrite (sumR_ext c _ (fun k => sumR q (fun l => w l * (Q k l * u k)))).
    2:{ intros k _. rewrite <- sumR_scal. apply sumR_ext. intros l _. ring. }
    rewrite sumR_exch. apply sumR_ext. intros l _. rewrite sumR_scal. reflexivity. }
  rewrite X. ring.
Qed.
(** The projection is the nearest point of the span. *)
Lemma nearest c q Q u (e : nat -> R) : orthonormal c q Q ->
  sumR c (fun k => u k * u k) - sumR q (fun l => coef c Q u l * coef c Q u l) <= sumR c (fun k => (u k - sumR q (fun l => Q k l * e l)) ^ 2).
Proof.
  intros HQ.
  rewrite (sumR_ext c (fun k => (u k - _) ^ 2) (fun k => (u k * u k - 2 * (u k * sumR q (fun l => Q k l * e l))) + sumR q (fun l => Q k l * e l) * sumR q (fun l => Q k l * e l))) by (intros; ring).
  rewrite sumR_plus, sumR_minus, sumR_scal, (combo _ _ _ _ _ HQ).
  assert (X : sumR c (fun k => u k * sumR q (fun l => Q k l * e l)) = sumR q (fun l => coef c Q u l * e l)).
  { rewrite (sumR_ext c _ (fun k => sumR q (fun l => e l * (Q k l * u k)))).
    2:{ intros k _. rewrite <- sumR_scal. apply sumR_ext. intros l _. ring. }
    rewrite sumR_exch. apply sumR_ext. intros l _. rewrite sumR_scal. unfold coef. ring. }
  rewrite X.
  assert (0 <= sumR q (fun l => (coef c Q u l - e l) * (coef c Q u l - e l))) by (apply sumR_ge0; intros; apply sq_ge0).
  rewrite (sumR_ext q (fun l => (coef c Q u l - e l) * _) (fun l => (coef c Q u l * coef c Q u l - 2 * (coef c Q u l * e l)) + e l * e l)) in H by (intros; ring).
  rewrite sumR_plus, sumR_minus, sumR_scal in H. lra.
Qed.

(** A weighted sum with weights in [0,1] of total at most [p] is at most the sum of the first [p] terms. *)
Lemma sumR_app' n m f : sumR (n + m) f = sumR n f + sumR m (fun i => f (n + i)%nat).
Proof. induction m as [|m IH]; [rewrite Nat.add_0_r; cbn; ring|]. rewrite Nat.add_succ_r, !sumR_S', IH. ring. Qed.
Lemma top_terms m p (s t : nat -> R) : (p <= m)%nat -> (forall i, (i < m)%nat -> 0 <= s i) -> (forall i j, (i <= j < m)%nat -> s j <= s i) ->
  (forall i, (i < m)%nat -> 0 <= t i <= 1) -> sumR m t <= INR p -> sumR m (fun i => s i * t i) <= sumR p s.
Proof.
  intros L S0 SD T1 TS. destruct (Nat.eq_dec p m) as [->|Hn].
  { apply sumR_le. intros i Hi. pose proof (S0 i Hi). pose proof (T1 i Hi). nra. }
  assert (Lp : (p < m)%nat) by lia. replace m with (p + (m - p))%nat in * by lia. set (q := (m - p)%nat) in *.
  rewrite sumR_app' in *. pose proof (S0 p Lp) as Sp.
  assert (E1 : sumR p (fun i => s i * t i) <= sumR p s - s p * (INR p - sumR p t)).
  { replace (sumR p s - s p * (INR p - sumR p t)) with (sumR p (fun i => (s i - s p * 1) + s p * t i)).
    - apply sumR_le. intros i Hi. pose proof (SD i p ltac:(lia)). pose proof (T1 i ltac:(lia)). nra.
    - rewrite sumR_plus, sumR_minus, !sumR_scal, sumR_const. ring. }
  assert (E2 : sumR q (fun i => s (p + i)%nat * t (p + i)%nat) <= s p * sumR q (fun i => t (p + i)%nat)).
  { rewrite <- sumR_scal. apply sumR_le. intros i Hi. pose proof (SD p (p + i)%nat ltac:(lia)). pose proof (T1 (p + i)%nat ltac:(lia)). nra. }
  nra.
Qed.

Section Best.
  Variables (r c m : nat) (A V U : nat -> nat -> R) (sigma : nat -> R).
  Hypotheses (HU : orthonormal r m U) (HV : orthonormal c m V)
    (HS : forall j, (j < m)%nat -> 0 <= sigma j) (HD : forall i j, (i <= j < m)%nat -> sigma j <= sigma i)
    (HA : forall i j, (i < r)%nat -> (j < c)%nat -> A i j = sumR m (fun k => U i k * sigma k * V j k)).
  Definition along (u : nat -> R) : R := sumR r (fun i => sumR c (fun k => A i k * u k) * sumR c (fun k => A i k * u k)).
  Lemma along_own j : (j < m)%nat -> along (fun k => V k j) = sigma j * sigma j.
  Proof. intros Hj. unfold along. rewrite (svd_cols r c m A V U sigma HU HV HA j j Hj Hj), Nat.eqb_refl. reflexivity. Qed.
  (** Ky Fan. *)
  Lemma ky_fan p q Q : orthonormal c q Q -> (q <= p)%nat -> (p <= m)%nat -> sumR q (fun j => along (fun k => Q k j)) <= sumR p (fun j => sigma j * sigma j).
  Proof.
    intros HQ Lq Lp. unfold along.
    rewrite (sumR_ext q _ (fun j => sumR m (fun l => sigma l * sigma l * (coef c V (fun k => Q k j) l * coef c V (fun k => Q k j) l)))).
    2:{ intros j _. rewrite (svd_inner r c m A V U sigma HU HA). apply sumR_ext. intros; ring. }
    rewrite sumR_exch. rewrite (sumR_ext m _ (fun l => sigma l * sigma l * sumR q (fun j => coef c V (fun k => Q k j) l * coef c V (fun k => Q k j) l))).
    2:{ intros l _. apply sumR_scal. }
    apply (top_terms m p (fun l => sigma l * sigma l)); auto.
    - intros; apply sq_ge0.
    - intros i j Hij. apply Rmult_le_compat; auto; apply HS; lia.
    - intros l Hl. split; [apply sumR_ge0; intros; apply sq_ge0|].
      pose proof (bessel c q Q (fun k => V k l) HQ) as B. rewrite HV, Nat.eqb_refl in B by auto.
      erewrite sumR_ext; [exact B|]. intros j _. cbn beta. assert (E : coef c V (fun k => Q k j) l = coef c Q (fun k => V k l) j) by (unfold coef; apply sumR_ext; intros; ring).
      rewrite E. reflexivity.
    - rewrite sumR_exch. apply Rle_trans with (sumR q (fun _ => 1)).
      + apply sumR_le. intros j Hj. pose proof (bessel c m V (fun k => Q k j) HV) as B. cbn beta in B. rewrite HQ, Nat.eqb_refl in B by auto. exact B.
      + rewrite sumR_const, Rmult_1_r. apply le_INR. exact Lq.
  Qed.
  Definition energy : R := sumR r (fun i => sumR c (fun k => A i k * A i k)).
  (** Projecting on [Q] loses the energy less the spread along [Q]. *)
  Lemma loss_own q Q : orthonormal c q Q ->
    sumR r (fun i => sumR c (fun k => (A i k - sumR q (fun j => sumR c (fun k' => A i k' * Q k' j) * Q k j)) ^ 2)) = energy - sumR q (fun j => along (fun k => Q k j)).
  Proof.
    intros HQ. unfold energy, along. rewrite (sumR_exch q r), <- sumR_minus. apply sumR_ext. intros i _.
    rewrite <- (sumR_ext q (fun l => coef c Q (A i) l * coef c Q (A i) l)), <- rest_norm by
      (auto; intros l _; unfold coef; f_equal; apply sumR_ext; intros; ring).
    apply sumR_ext. intros k _. f_equal. f_equal. apply sumR_ext. intros l _. unfold coef. rewrite Rmult_comm. f_equal. apply sumR_ext. intros; ring.
  Qed.
  Lemma loss_any p B W : (p <= m)%nat ->
    energy - sumR p (fun j => sigma j * sigma j) <= sumR r (fun i => sumR c (fun k => (A i k - sumR p (fun j => B i j * W k j)) ^ 2)).
  Proof.
    intros Lp. destruct (gram_schmidt c p W) as (q & Q & Lq & HQ & D & HDe).
    apply Rle_trans with (energy - sumR q (fun j => along (fun k => Q k j))).
    { pose proof (ky_fan p q Q HQ Lq Lp). lra. }
    unfold energy, along. rewrite (sumR_exch q r), <- sumR_minus. apply sumR_le. intros i _.
    rewrite <- (sumR_ext q (fun l => coef c Q (A i) l * coef c Q (A i) l)) by
      (auto; intros l _; unfold coef; f_equal; apply sumR_ext; intros; ring).
    eapply Rle_trans; [apply (nearest c q Q (A i) (fun l => sumR p (fun j => D l j * B i j)) HQ)|]. apply Req_le.
    apply sumR_ext. intros k Hk. f_equal. f_equal.
    rewrite (sumR_ext p _ (fun j => sumR q (fun l => Q k l * (D l j * B i j)))).
    2:{ intros j Hj. rewrite (HDe k j Hk Hj), Rmult_comm, <- sumR_scal_r. apply sumR_ext. intros; ring. }
    rewrite sumR_exch. apply sumR_ext. intros l _. symmetry. apply sumR_scal.
  Qed.
End Best.

(** Subtracting the means of the columns of what is subtracted can only help. *)
Lemma centre_helps n (x e : nat -> R) : (0 < n)%nat -> sumR n x = 0 -> sumR n (fun i => (x i - (e i - sumR n e / INR n)) ^ 2) <= sumR n (fun i => (x i - e i) ^ 2).
Proof.
  intros Hn X0. set (m := sumR n e / INR n).
  assert (E : sumR n (fun i => x i - (e i - m)) = 0).
  { rewrite sumR_minus, sumR_minus, sumR_const, X0. unfold m. field. apply not_0_INR. lia. }
  rewrite (sumR_ext n (fun i => (x i - e i) ^ 2) (fun i => ((x i - (e i - m)) ^ 2 - 2 * m * (x i - (e i - m))) + m ^ 2)) by (intros; ring).
  rewrite sumR_plus, sumR_minus, sumR_scal, E, sumR_const. pose proof (pos_INR n). pose proof (pow2_ge_0 m). nra.
Qed.

Lemma orth_row_sum c V k : orthonormal c c V -> (k < c)%nat -> sumR c (fun l => V k l * V k l) = 1.
Proof.
  intros HV Hk. pose (e := fun k i : nat => if (k =? i)%nat then 1 else 0).
  assert (CE : forall k l, (k < c)%nat -> coef c V (e k) l = V k l).
  { intros k' l Hk'. unfold coef, e. rewrite (sumR_ext c _ (fun i => if (k' =? i)%nat then V i l else 0)).
    - apply (sumR_pick c (fun i => V i l)). exact Hk'.
    - intros i _. destruct (k' =? i)%nat; ring. }
  assert (EE : forall k, (k < c)%nat -> sumR c (fun i => e k i * e k i) = 1).
  { intros k' Hk'. unfold e. rewrite (sumR_ext c _ (fun i => if (k' =? i)%nat then 1 else 0)).
    - apply (sumR_pick c (fun _ => 1)). exact Hk'.
    - intros i _. destruct (k' =? i)%nat; ring. }
  assert (B : forall k, (k < c)%nat -> 0 <= 1 - sumR c (fun l => V k l * V k l)).
  { intros k' Hk'. pose proof (bessel c c V (e k') HV) as B. rewrite EE in B by auto.
    rewrite (sumR_ext c _ (fun l => V k' l * V k' l)) in B by (intros l _; rewrite !CE by auto; reflexivity). lra. }
  assert (T : sumR c (fun k => 1 - sumR c (fun l => V k l * V k l)) = 0).
  { rewrite sumR_minus, sumR_exch, (sumR_ext c (fun j => sumR c (fun i => V i j * V i j)) (fun _ => 1)).
    - ring.
    - intros j Hj. rewrite HV, Nat.eqb_refl by auto. reflexivity. }
  pose proof (sumR_zero_inv c _ B T k Hk). cbn beta in H. lra.
Qed.
(** As many orthonormal vectors as there are coordinates: nothing is left over. *)
Lemma parseval c V u : orthonormal c c V -> sumR c (fun l => coef c V u l * coef c V u l) = sumR c (fun k => u k * u k).
Proof.
  intros HV. assert (HT : orthonormal c c (fun k l => V l k)).
  { assert (Z : forall k, (k < c)%nat -> forall i, (i < c)%nat -> sumR c (fun l => V i l * V k l) = if (k =? i)%nat then 1 else 0).
    { intros k Hk. pose (e := fun i : nat => if (k =? i)%nat then 1 else 0).
      assert (CE : forall l, coef c V e l = V k l).
      { intros l. unfold coef, e. rewrite (sumR_ext c _ (fun i => if (k =? i)%nat then V i l else 0)).
        - apply (sumR_pick c (fun i => V i l)). exact Hk.
        - intros i _. destruct (k =? i)%nat; ring. }
      pose proof (rest_norm c c V e HV) as RN.
      rewrite (sumR_ext c (fun l => coef c V e l * coef c V e l) (fun l => V k l * V k l)) in RN by (intros; rewrite !CE; reflexivity).
      rewrite (orth_row_sum c V k HV Hk) in RN.
      assert (EE : sumR c (fun i => e i * e i) = 1).
      { unfold e. rewrite (sumR_ext c _ (fun i => if (k =? i)%nat then 1 else 0)).
        - apply (sumR_pick c (fun _ => 1)). exact Hk.
        - intros i _. destruct (k =? i)%nat; ring. }
      rewrite EE in RN. intros i Hi.
      assert (RZ : (e i - sumR c (fun l => V i l * coef c V e l)) ^ 2 = 0).
      { refine (sumR_zero_inv c (fun i => (e i - sumR c (fun l => V i l * coef c V e l)) ^ 2) _ _ i Hi); [intros; apply pow2_ge_0|]. rewrite RN. ring. }
      assert (RZ' : e i - sumR c (fun l => V i l * coef c V e l) = 0) by (apply Rsqr_0_uniq; unfold Rsqr; rewrite <- RZ; ring).
      rewrite (sumR_ext c _ (fun l => V i l * V k l)) in RZ' by (intros; rewrite CE; reflexivity). fold (e i). lra. }
    intros a b Ha Hb. rewrite (sumR_ext c _ (fun l => V b l * V a l)) by (intros; ring). apply Z; auto. }
  exact (combo c c (fun k l => V l k) u u HT).
Qed.

(** ** The model *)
Lemma pow2_mul x : x ^ 2 = x * x. Proof. ring. Qed.
Lemma train_out svd (self self' : PCA R) X : svd_sound svd -> mwf X -> (0 < nrows X)%nat -> pca_train svd self X = (self', Ok tt) -> usable self X ->
  exists V sigma p, p = Nat.min (nrows X) (wanted (pca_n self) (mcols X)) /\ (p <= Nat.min (nrows X) (mcols X))%nat /\ is_svd (nrows X) (mcols X) (Nat.min (nrows X) (mcols X)) (prepared_entry (pca_center self) X) V sigma /\ stored_directions self' X p V /\
    forall Xs, mwf Xs -> mcols Xs = mcols X -> exists out, pca_predict self' Xs = Ok out /\ mcols out = p /\ projection (pca_center self) X V Xs out.
Proof.
  intros HS W HR HT HG. destruct (pca_values_split _ _ _ _ HS W HR HT HG) as (V & sigma & HD & (comp & EC & WC & C1 & C2) & HP).
  destruct (pca_train_inv _ _ _ _ HT) as (Hn & _).
  assert (HN : (wanted (pca_n self) (mcols X) <= mcols X)%nat).
  { unfold wanted. destruct (pca_n self); auto. }
  exists V, sigma, (Nat.min (nrows X) (wanted (pca_n self) (mcols X))). split; [reflexivity|]. split; [lia|]. split; [exact HD|]. split; [|exact HP].
  exists comp. split; [exact EC|]. intros k j Hk Hj. split; intros Hw.
  - destruct (C1 Hw) as (E1 & E2 & E3). rewrite E3; [reflexivity|lia|lia].
  - destruct (C2 Hw) as (E1 & E2 & E3). rewrite E3; [reflexivity|lia|lia].
Qed.
Theorem pca_best svd (self self' : PCA R) X : svd_sound svd -> mwf X -> (0 < nrows X)%nat -> pca_train svd self X = (self', Ok tt) ->
  usable self X ->
  exists V out, pca_predict self' X = Ok out /\ stored_directions self' X (mcols out) V /\ orthonormal (mcols X) (mcols out) V /\
    projection (pca_center self) X V X out /\
    (forall W, orthonormal (mcols X) (mcols out) W ->
       sumR (mcols out) (fun j => spread (pca_center self) X (fun k => W k j)) <= sumR (mcols out) (fun j => sumR (nrows X) (fun i => entry out i j ^ 2))) /\
    (forall mu B W, (pca_center self = false -> forall k, mu k = 0) ->
       misfit X (mcols out) (centre_of (pca_center self) X) (entry out) V <= misfit X (mcols out) mu B W) /\
    (mcols out = Nat.min (nrows X) (mcols X) -> misfit X (mcols out) (centre_of (pca_center self) X) (entry out) V = 0).
Proof.
  intros HS W HR HT HG. destruct (train_out _ _ _ _ HS W HR HT HG) as (V & sigma & p & Ep & Lp & HD & ST & HP).
  destruct (HP X W eq_refl) as (out & E & MC & PJ). exists V, out. rewrite MC. split; [exact E|]. split; [exact ST|].
  destruct HD as (U & HU & HV & HSg & HDc & HA). set (A := prepared_entry (pca_center self) X) in *. set (m := Nat.min (nrows X) (mcols X)) in *.
  split; [exact (orth_le _ _ _ _ HV Lp)|]. split; [exact PJ|]. destruct PJ as (PR & PW & PE). rewrite MC in PE.
  assert (COL : forall j, (j < p)%nat -> sumR (nrows X) (fun i => entry out i j * entry out i j) = sigma j * sigma j).
  { intros j Hj. rewrite <- (along_own (nrows X) (mcols X) m A V U sigma HU HV HA j ltac:(lia)). unfold along. apply sumR_ext. intros i Hi.
    rewrite !PE by auto. reflexivity. }
  assert (MIS : misfit X p (centre_of (pca_center self) X) (entry out) V = energy (nrows X) (mcols X) A - sumR p (fun j => sigma j * sigma j)).
  { rewrite (sumR_ext p (fun j => sigma j * sigma j) (fun j => along (nrows X) (mcols X) A (fun k => V k j))).
    2:{ intros j Hj. rewrite (along_own (nrows X) (mcols X) m A V U sigma HU HV HA j ltac:(lia)). reflexivity. }
    rewrite <- (loss_own (nrows X) (mcols X) A p V (orth_le _ _ _ _ HV Lp)). unfold misfit. apply sumR_ext. intros i Hi. apply sumR_ext. intros k Hk.
    f_equal. unfold A at 1, prepared_entry. f_equal. apply sumR_ext. intros j Hj. rewrite PE by auto. reflexivity. }
  split; [|split].
  - intros W' HW. rewrite (sumR_ext p (fun j => sumR (nrows X) (fun i => entry out i j ^ 2)) (fun j => sigma j * sigma j)).
    2:{ intros j Hj. rewrite <- COL by auto. apply sumR_ext. intros; ring. }
    exact (ky_fan (nrows X) (mcols X) m A V U sigma HU HV HSg HDc HA p p W' HW (le_n _) Lp).
  - intros mu B W' Hmu. rewrite MIS.
    assert (G : exists B', sumR (nrows X) (fun i => sumR (mcols X) (fun k => (A i k - sumR p (fun j => B' i j * W' k j)) ^ 2)) <= misfit X p mu B W').
    { destruct (pca_center self) eqn:EC.
      - exists (fun i j => B i j - sumR (nrows X) (fun i => B i j) / INR (nrows X)). unfold misfit. rewrite sumR_exch, (sumR_exch (nrows X)). apply sumR_le. intros k Hk.
        pose proof (centre_helps (nrows X) (fun i => A i k) (fun i => (mu k - mean_of X k) + sumR p (fun j => B i j * W' k j)) HR (centred_sum X k HR)) as CH.
        cbn beta in CH. refine (Rle_trans _ _ _ _ (Rle_trans _ _ _ CH _)); apply Req_le; apply sumR_ext; intros i Hi; f_equal.
        + f_equal. rewrite sumR_plus, sumR_const. rewrite sumR_exch.
          rewrite (sumR_ext p (fun j => sumR (nrows X) (fun i => B i j * W' k j)) (fun j => sumR (nrows X) (fun i => B i j) * W' k j)) by (intros; apply sumR_scal_r).
          rewrite (sumR_ext p _ (fun j => B i j * W' k j - / INR (nrows X) * (sumR (nrows X) (fun i0 => B i0 j) * W' k j))) by (intros; unfold Rdiv; ring).
          rewrite sumR_minus, sumR_scal. field. apply not_0_INR. lia.
        + unfold A, prepared_entry, centre_of. ring.
      - exists B. unfold misfit. apply Req_le. apply sumR_ext. intros i _. apply sumR_ext. intros k _. unfold A, prepared_entry, centre_of. rewrite Hmu by auto. reflexivity. }
    destruct G as (B' & G). refine (Rle_trans _ _ _ _ G).
    exact (loss_any (nrows X) (mcols X) m A V U sigma HU HV HSg HDc HA p B' W' Lp).
  - intros Em. rewrite MIS. unfold energy.
    rewrite (sumR_ext (nrows X) _ (fun i => sumR m (fun l => (U i l * sigma l) * (U i l * sigma l)))).
    2:{ intros i Hi. rewrite <- (combo (mcols X) m V (fun l => U i l * sigma l) (fun l => U i l * sigma l) HV). apply sumR_ext. intros k Hk.
        rewrite (HA i k Hi Hk). f_equal; apply sumR_ext; intros; ring. }
    rewrite sumR_exch, Em. rewrite (sumR_ext m _ (fun l => sigma l * sigma l)); [ring|]. intros l Hl.
    rewrite (sumR_ext (nrows X) _ (fun i => sigma l * sigma l * (U i l * U i l))) by (intros; ring). rewrite sumR_scal, HU, Nat.eqb_refl by auto. ring.
Qed.

(** Distances between projected rows. *)
Theorem pca_distances svd (self self' : PCA R) X : svd_sound svd -> mwf X -> (0 < nrows X)%nat -> pca_train svd self X = (self', Ok tt) ->
  usable self X -> forall Y Z, mwf Y -> mwf Z -> mcols Y = mcols X -> mcols Z = mcols X ->
  exists oy oz, pca_predict self' Y = Ok oy /\ pca_predict self' Z = Ok oz /\
    (forall i i', (i < nrows Y)%nat -> (i' < nrows Z)%nat -> row_dist2 oy i oz i' <= row_dist2 Y i Z i') /\
    (~ wide X -> wanted (pca_n self) (mcols X) = mcols X -> forall i i', (i < nrows Y)%nat -> (i' < nrows Z)%nat -> row_dist2 oy i oz i' = row_dist2 Y i Z i').
Proof.
  intros HS W HR HT HG Y Z WY WZ CY CZ. destruct (train_out _ _ _ _ HS W HR HT HG) as (V & sigma & p & Ep & Lp & HD & _ & HP).
  destruct (HP Y WY CY) as (oy & EY & MY & RY & _ & PY). destruct (HP Z WZ CZ) as (oz & EZ & MZ & RZ & _ & PZ).
  destruct HD as (U & HU & HV & _). rewrite MY in PY. rewrite MZ in PZ.
  exists oy, oz. split; [exact EY|]. split; [exact EZ|].
  assert (K : forall i i', (i < nrows Y)%nat -> (i' < nrows Z)%nat ->
    row_dist2 oy i oz i' = sumR p (fun l => coef (mcols X) V (fun k => entry Y i k - entry Z i' k) l * coef (mcols X) V (fun k => entry Y i k - entry Z i' k) l) /\
    row_dist2 Y i Z i' = sumR (mcols X) (fun k => (entry Y i k - entry Z i' k) * (entry Y i k - entry Z i' k))).
  { intros i i' Hi Hi'. unfold row_dist2. rewrite MY, CY. split; apply sumR_ext; intros l Hl; [|ring]. rewrite PY, PZ, <- sumR_minus, pow2_mul by auto.
    assert (G : sumR (mcols X) (fun k => (entry Y i k - centre_of (pca_center self) X k) * V k l - (entry Z i' k - centre_of (pca_center self) X k) * V k l)
      = coef (mcols X) V (fun k => entry Y i k - entry Z i' k) l) by (unfold coef; apply sumR_ext; intros; ring).
    rewrite G. reflexivity. }
  split.
  - intros i i' Hi Hi'. destruct (K i i' Hi Hi') as (-> & ->). apply bessel. exact (orth_le _ _ _ _ HV Lp).
  - intros Hw Hn i i' Hi Hi'. destruct (K i i' Hi Hi') as (-> & ->). unfold wide in Hw.
    assert (Hp : p = mcols X) by lia. rewrite Hp. apply parseval. refine (orth_le _ _ _ _ HV _). lia.
Qed.
