(** Positive semidefinite forms, on real-valued functions of two indices. *)
From Coq Require Import List Arith Lia Bool Reals Lra.
From Verif Require Import Base BaseLemmas Num Linalg LinalgR MatR Proof_KMeans.
Import ListNotations.
Local Open Scope R_scope.

Definition qf n (K : nat -> nat -> R) (c : nat -> R) : R := sumR n (fun i => sumR n (fun j => c i * c j * K i j)).
Definition psdf n (K : nat -> nat -> R) : Prop := forall c, 0 <= qf n K c.

Lemma qf_ext n K K' c c' : (forall i j, (i < n)%nat -> (j < n)%nat -> K i j = K' i j) -> (forall i, (i < n)%nat -> c i = c' i) -> qf n K c = qf n K' c'.
Proof. intros H Hc. apply sumR_ext. intros i Hi. apply sumR_ext. intros j Hj. now rewrite H, !Hc. Qed.
Lemma psdf_ext n K K' : (forall i j, (i < n)%nat -> (j < n)%nat -> K i j = K' i j) -> psdf n K -> psdf n K'.
Proof. intros H P c. rewrite <- (qf_ext n K K' c c); auto. Qed.
Lemma qf_plus n K K' c : qf n (fun i j => K i j + K' i j) c = qf n K c + qf n K' c.
Proof. unfold qf. rewrite <- sumR_plus. apply sumR_ext. intros i _. rewrite <- sumR_plus. apply sumR_ext. intros j _. ring. Qed.
Lemma qf_scal n K a c : qf n (fun i j => a * K i j) c = a * qf n K c.
Proof. unfold qf. rewrite <- sumR_scal. apply sumR_ext. intros i _. rewrite <- sumR_scal. apply sumR_ext. intros j _. ring. Qed.
Lemma psdf_plus n K K' : psdf n K -> psdf n K' -> psdf n (fun i j => K i j + K' i j).
Proof. intros P P' c. rewrite qf_plus. specialize (P c). specialize (P' c). lra. Qed.
Lemma psdf_scal n K a : 0 <= a -> psdf n K -> psdf n (fun i j => a * K i j).
Proof. intros Ha P c. rewrite qf_scal. apply Rmult_le_pos; [auto|apply P]. Qed.
Lemma qf_rank1 n g c : qf n (fun i j => g i * g j) c = (sumR n (fun i => c i * g i)) ^ 2.
Proof.
  unfold qf. rewrite (sumR_ext _ _ (fun i => c i * g i * sumR n (fun j => c j * g j))).
  - rewrite sumR_scal_r. ring.
  - intros i _. rewrite <- sumR_scal. apply sumR_ext. intros j _. ring.
Qed.
Lemma psdf_rank1 n g : psdf n (fun i j => g i * g j).
Proof. intros c. rewrite qf_rank1. apply pow2_ge_0. Qed.
Lemma psdf_diag n K g : psdf n K -> psdf n (fun i j => g i * g j * K i j).
Proof. intros P c. specialize (P (fun i => c i * g i)). replace (qf n (fun i j => g i * g j * K i j) c) with (qf n K (fun i => c i * g i)); auto.
  apply sumR_ext. intros i _. apply sumR_ext. intros j _. ring. Qed.
Lemma psdf_sum n m (f : nat -> nat -> nat -> R) : (forall k, (k < m)%nat -> psdf n (f k)) -> psdf n (fun i j => sumR m (fun k => f k i j)).
Proof.
  induction m as [|m IH]; intros H c.
  - unfold qf. rewrite sumR_zero; [lra|]. intros i _. apply sumR_zero. intros j _. cbn. ring.
  - cbn [sumR]. rewrite qf_plus. pose proof (IH (fun k Hk => H k (Nat.lt_lt_succ_r _ _ Hk)) c). pose proof (H m (Nat.lt_succ_diag_r m) c). lra.
Qed.

Lemma sumR_two n (f : nat -> R) i j : (i < n)%nat -> (j < n)%nat -> i <> j -> (forall k, (k < n)%nat -> k <> i -> k <> j -> f k = 0) -> sumR n f = f i + f j.
Proof.
  intros Hi Hj D H. rewrite (sumR_ext n f (fun k => (if (i =? k)%nat then f k else 0) + (if (j =? k)%nat then f k else 0))).
  - rewrite sumR_plus, !sumR_pick; auto.
  - intros k Hk. destruct (Nat.eqb_spec i k) as [->|]; destruct (Nat.eqb_spec j k) as [->|]; try lra. contradiction. rewrite H; auto. lra.
Qed.
Lemma qf_one n K i a : (i < n)%nat -> qf n K (fun k => if (k =? i)%nat then a else 0) = a * a * K i i.
Proof.
  intros Hi. unfold qf. rewrite (sumR_single n _ i Hi).
  - rewrite (sumR_single n _ i Hi). { now rewrite Nat.eqb_refl. }
    intros j _ Hj. apply Nat.eqb_neq in Hj. rewrite Hj. ring.
  - intros k _ Hk. apply sumR_zero. intros j _. apply Nat.eqb_neq in Hk. rewrite Hk. ring.
Qed.
Lemma psdf_diag_ge0 n K i : psdf n K -> (i < n)%nat -> 0 <= K i i.
Proof. intros P Hi. specialize (P (fun k => if (k =? i)%nat then 1 else 0)). rewrite qf_one in P by auto. lra. Qed.

(** The form on [S n] coordinates in terms of the first [n]. *)
Lemma qf_S n K c : (forall i, (i < n)%nat -> K i n = K n i) ->
  qf (S n) K c = qf n K c + 2 * c n * sumR n (fun i => c i * K i n) + c n * c n * K n n.
Proof.
  intros Sy. unfold qf. cbn [sumR]. rewrite sumR_plus.
  rewrite (sumR_ext n (fun i => c i * c n * K i n) (fun i => c n * (c i * K i n))) by (intros; ring).
  rewrite (sumR_ext n (fun i => c n * c i * K n i) (fun i => c n * (c i * K i n))) by (intros i Hi; rewrite (Sy i Hi); ring).
  rewrite !sumR_scal. ring.
Qed.
(** Every symmetric positive semidefinite form is a sum of squares. *)
Lemma psd_features n : forall K, (forall i j, (i < n)%nat -> (j < n)%nat -> K i j = K j i) -> psdf n K ->
  exists f : nat -> nat -> R, forall i j, (i < n)%nat -> (j < n)%nat -> K i j = sumR n (fun m => f m i * f m j).
Proof.
  induction n as [|n IH]; intros K Sy P. { exists (fun _ _ => 0). intros i j Hi. lia. }
  pose proof (psdf_diag_ge0 (S n) K n P ltac:(lia)) as Hd.
  assert (SyN : forall i, (i < n)%nat -> K i n = K n i) by (intros; apply Sy; lia).
  destruct (Req_dec (K n n) 0) as [D|D].
  - assert (Z : forall i, (i < n)%nat -> K i n = 0).
    { intros i Hi. destruct (Req_dec (K i n) 0) as [|E]; auto. exfalso.
      set (t := - (K i i + 1) / (2 * K i n)).
      specialize (P (fun k => if (k =? i)%nat then 1 else if (k =? n)%nat then t else 0)). rewrite qf_S in P by auto.
      rewrite (qf_ext n K K _ (fun k => if (k =? i)%nat then 1 else 0)) in P; auto.
      2:{ intros k Hk. destruct (k =? i)%nat; auto. destruct (Nat.eqb_spec k n); auto. lia. }
      rewrite qf_one in P by auto. rewrite (sumR_single n _ i Hi) in P.
      2:{ intros k Hk Hne. apply Nat.eqb_neq in Hne. rewrite Hne. destruct (Nat.eqb_spec k n); [lia|ring]. }
      rewrite Nat.eqb_refl in P. destruct (Nat.eqb_spec n i) as [|_]; [lia|]. rewrite Nat.eqb_refl, D in P.
      replace (1 * 1 * K i i + 2 * t * (1 * K i n) + t * t * 0) with (-1) in P; [lra|]. unfold t. field. auto. }
    destruct (IH K) as [f Hf].
    + intros i j Hi Hj. apply Sy; lia.
    + intros c. specialize (P (fun k => if (k =? n)%nat then 0 else c k)). rewrite qf_S in P by auto.
      rewrite (qf_ext n K K _ c) in P; auto. 2:{ intros k Hk. destruct (Nat.eqb_spec k n); auto; lia. }
      rewrite Nat.eqb_refl in P. lra.
    + exists (fun m i => if (i =? n)%nat then 0 else if (m =? n)%nat then 0 else f m i). intros i j Hi Hj. cbn [sumR]. rewrite Nat.eqb_refl.
      destruct (Nat.eqb_spec i n) as [->|Ni]; [|destruct (Nat.eqb_spec j n) as [->|Nj]].
      * rewrite sumR_zero by (intros; ring). destruct (Nat.eqb_spec j n) as [->|Nj]; [lra|]. rewrite <- SyN, Z by lia. ring.
      * rewrite sumR_zero by (intros m Hm; destruct (m =? n)%nat; ring). rewrite Z by lia. ring.
      * rewrite Hf by lia. rewrite Rmult_0_l, Rplus_0_r. apply sumR_ext. intros m Hm. destruct (Nat.eqb_spec m n); [lia|reflexivity].
  - assert (Dp : 0 < K n n) by lra. set (d := K n n) in *.
    destruct (IH (fun i j => K i j - K i n * K j n / d)) as [f Hf].
    + intros i j Hi Hj. rewrite (Sy i j) by lia. field. lra.
    + intros c. set (s := sumR n (fun i => c i * K i n)).
      specialize (P (fun k => if (k =? n)%nat then - s / d else c k)). rewrite qf_S in P by auto. fold d in P.
      rewrite (qf_ext n K K _ c) in P; auto. 2:{ intros k Hk. destruct (Nat.eqb_spec k n); auto; lia. }
      rewrite (sumR_ext n _ (fun i => c i * K i n)) in P. 2:{ intros k Hk. destruct (Nat.eqb_spec k n); auto; lia. }
      rewrite Nat.eqb_refl in P. fold s in P.
      rewrite (qf_ext n _ (fun i j => K i j + (- / d) * (K i n * K j n)) c c); auto. 2:{ intros. field. lra. }
      rewrite qf_plus, qf_scal, (qf_rank1 n (fun i => K i n)). fold s.
      replace (qf n K c + - / d * s ^ 2) with (qf n K c + 2 * (- s / d) * s + - s / d * (- s / d) * d); auto. field. lra.
    + pose proof (sqrt_lt_R0 d Dp) as Sp. pose proof (sqrt_sqrt d (Rlt_le _ _ Dp)) as Ss.
      exists (fun m i => if (m =? n)%nat then K i n / sqrt d else if (i =? n)%nat then 0 else f m i). intros i j Hi Hj. cbn [sumR]. rewrite Nat.eqb_refl.
      assert (E : K i n / sqrt d * (K j n / sqrt d) = K i n * K j n / d) by (rewrite <- Ss at 3; field; lra).
      rewrite E. rewrite (sumR_ext n _ (fun m => (if (i =? n)%nat then 0 else f m i) * (if (j =? n)%nat then 0 else f m j))).
      2:{ intros m Hm. destruct (Nat.eqb_spec m n); [lia|reflexivity]. }
      destruct (Nat.eqb_spec i n) as [->|Ni]; [|destruct (Nat.eqb_spec j n) as [->|Nj]].
      * rewrite sumR_zero by (intros; ring). fold d. rewrite (Sy n j) by lia. field. lra.
      * rewrite sumR_zero by (intros; ring). fold d. field. lra.
      * pose proof (Hf i j ltac:(lia) ltac:(lia)) as H. cbv beta in H. lra.
Qed.
(** Schur: entrywise products. *)
Lemma psdf_mult n K K' : (forall i j, (i < n)%nat -> (j < n)%nat -> K i j = K j i) -> psdf n K -> psdf n K' -> psdf n (fun i j => K i j * K' i j).
Proof.
  intros Sy P P'. destruct (psd_features n K Sy P) as [f Hf].
  apply (psdf_ext n (fun i j => sumR n (fun m => f m i * f m j * K' i j))).
  - intros i j Hi Hj. rewrite Hf by auto. now rewrite sumR_scal_r.
  - apply psdf_sum. intros m _. now apply psdf_diag.
Qed.
Lemma psdf_pow n K d : (forall i j, (i < n)%nat -> (j < n)%nat -> K i j = K j i) -> psdf n K -> psdf n (fun i j => K i j ^ d).
Proof.
  intros Sy P. induction d as [|d IH]; cbn [pow].
  - apply (psdf_ext n (fun i j => 1 * 1)); [intros; ring|]. apply (psdf_rank1 n (fun _ => 1)).
  - now apply psdf_mult.
Qed.
(** Limits. *)
Lemma cv_sumR m (u : nat -> nat -> R) (l : nat -> R) : (forall k, (k < m)%nat -> Un_cv (fun N => u N k) (l k)) -> Un_cv (fun N => sumR m (u N)) (sumR m l).
Proof.
  induction m as [|m IH]; intros H; cbn [sumR].
  - intros e He. exists 0%nat. intros. unfold R_dist. rewrite Rminus_diag_eq, Rabs_R0; auto.
  - apply (CV_plus (fun N => sumR m (u N)) (fun N => u N m)); [apply IH; intros; apply H; lia|apply H; lia].
Qed.
Lemma psdf_lim n (K : nat -> nat -> nat -> R) L : (forall N, psdf n (K N)) -> (forall i j, (i < n)%nat -> (j < n)%nat -> Un_cv (fun N => K N i j) (L i j)) -> psdf n L.
Proof.
  intros P H c. assert (C : Un_cv (fun N => qf n (K N) c) (qf n L c)).
  { unfold qf. apply (cv_sumR n (fun N i => sumR n (fun j => c i * c j * K N i j))). intros i Hi.
    apply (cv_sumR n (fun N j => c i * c j * K N i j)). intros j Hj.
    apply (CV_mult (fun _ => c i * c j) (fun N => K N i j)); auto.
    intros e He. exists 0%nat. intros. unfold R_dist. rewrite Rminus_diag_eq, Rabs_R0; auto. }
  apply (@Rle_cv_lim (fun _ => 0) (fun N => qf n (K N) c)); [intros N; apply P| |exact C].
  intros e He. exists 0%nat. intros. unfold R_dist. rewrite Rminus_diag_eq, Rabs_R0; auto.
Qed.
Lemma psdf_exp n K : (forall i j, (i < n)%nat -> (j < n)%nat -> K i j = K j i) -> psdf n K -> psdf n (fun i j => exp (K i j)).
Proof.
  intros Sy P. apply (psdf_lim n (fun N i j => sumR (S N) (fun k => / INR (fact k) * K i j ^ k))).
  - intros N. apply (psdf_sum n (S N) (fun k i j => / INR (fact k) * K i j ^ k)). intros k _. apply psdf_scal.
    + left. apply Rinv_0_lt_compat. apply INR_fact_lt_0.
    + now apply psdf_pow.
  - intros i j _ _. unfold exp. destruct (exist_exp (K i j)) as [l Hl]. cbn [proj1_sig]. intros e He. destruct (Hl e He) as [N HN]. exists N.
    intros m Hm. specialize (HN m Hm). replace (sumR (S m) _) with (sum_f_R0 (fun k => / INR (fact k) * K i j ^ k) m); auto.
    clear. induction m as [|m IH]; [cbn; ring|]. rewrite tech5, IH. reflexivity.
Qed.
