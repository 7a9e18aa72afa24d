(** The best logistic fit: likelihood of the Bernoulli family, concrete data. *)
From Coq Require Import List Arith Lia Bool Reals Lra ZArith.
From Verif Require Import Base BaseLemmas Num NumFn Linalg LinalgR MatR Proof_KMeans Proof_KMeans3 Model_Toolkit Proof_Toolkit Model_Optim Model_Regression Spec_Regression
  Proof_Regression Proof_GLM2 Proof_Converge2 Spec_Succeeds Proof_Separable Spec_GLM Model_GLM Proof_GLM Proof_GLMEx Model_Datasets Spec_Datasets Proof_Datasets Spec_Overlap Proof_Overlap.
Import ListNotations.
Local Open Scope R_scope.

Lemma loss_loglik X y p : (0 < nrows X)%nat -> mwf X -> length y = nrows X -> length p = S (mcols X) ->
  log_loss X y p = - loglik bernoulli_cumulant X y p / INR (nrows X).
Proof.
  intros Hn W Ly Lp. rewrite log_loss_cost by auto. unfold lg_cost, loglik. rewrite with_ones_nrows. f_equal.
  rewrite <- (Rmult_1_l (sumR _ (fun i => _ * _ - _))), Ropp_mult_distr_l, <- sumR_scal. apply sumR_ext. intros i Hi.
  rewrite mat_vec_ones by auto. rewrite (nth_map (affine p) _ _ _ []) by exact Hi. unfold bernoulli_cumulant, sp. ring.
Qed.
Lemma mle_best X y p : (0 < nrows X)%nat -> mwf X -> length y = nrows X -> (is_mle bernoulli_cumulant X y p <-> best_fit X y p).
Proof.
  intros Hn W Ly. pose proof (lt_0_INR _ Hn) as P.
  assert (E : forall p q, length p = S (mcols X) -> length q = S (mcols X) -> (log_loss X y p <= log_loss X y q <-> loglik bernoulli_cumulant X y q <= loglik bernoulli_cumulant X y p)).
  { intros a b La Lb. rewrite !loss_loglik by auto. split; intros H.
    - apply Ropp_le_cancel. apply Rmult_le_reg_r with (/ INR (nrows X)); [now apply Rinv_0_lt_compat|exact H].
    - apply div_le; [exact P|]. lra. }
  split; intros (L & B); split; auto; intros q Lq; apply E; auto.
Qed.
Theorem glm_best inverse X y mu z b : inverse_sound inverse -> mwf X -> (0 < nrows X)%nat -> length y = nrows X -> length mu = nrows X -> length z = nrows X -> labels y ->
  (forall i, (i < nrows X)%nat -> 1 / 10 ^ 5 <= nth i mu 0 * (1 - nth i mu 0)) ->
  glm_pass inverse Bernoulli (with_ones X) y mu z = Ok (b, mu, z) -> best_fit X y b /\ overlap X y.
Proof.
  intros I W Hn Ly Lm Lz Hy Hm H.
  assert (B : is_mle bernoulli_cumulant X y b).
  { apply (fixed_bernoulli inverse X y mu z b I W Ly Lm Lz); [|exact H]. intros i Hi. split; [now apply Hm|]. right. specialize (Hm i Hi).
    assert (E5 : 10 ^ 5 = 100000) by (cbn; lra). rewrite E5 in Hm. assert (E15 : 100000 <= 10 ^ 15) by (cbn; lra).
    assert (/ 10 ^ 15 <= / 100000) by (apply Rinv_le_contravar; lra). set (m := nth i mu 0) in *.
    destruct (Hy i) as [E|E]; [lia| |]; rewrite E.
    - rewrite Rabs_minus_sym, Rminus_0_r. apply Rle_trans with m; [|apply Rle_abs]. nra.
    - apply Rle_trans with (1 - m); [|apply Rle_abs]. nra. }
  apply (mle_best X y b Hn W Ly) in B. split; [exact B|]. exact (fit_overlap X y W Hn Ly Hy b B).
Qed.

(** Alternating targets on a line. *)
Definition zigzag : matrix R := Mat [[0]; [1]; [2]; [3]] 1.
Lemma zigzag_ok : mwf zigzag /\ (0 < nrows zigzag)%nat /\ length [0; 1; 0; 1] = nrows zigzag /\ labels [0; 1; 0; 1] /\ spans zigzag /\ overlap zigzag [0; 1; 0; 1] /\
  2 * INR (nrows zigzag) <= 10 ^ 20.
Proof.
  split; [repeat constructor|]. split; [cbn; lia|]. split; [reflexivity|]. split; [|split; [|split]].
  - intros [|[|[|[|i]]]] Hi; cbn in *; auto; lia.
  - intros [|a [|b [|]]] L H; try discriminate. pose proof (H [0] ltac:(cbn; tauto)) as H0. pose proof (H [1] ltac:(cbn; tauto)) as H1.
    unfold affine in H0, H1. cbn in H0, H1. cbn. f_equal; [lra|]. f_equal. lra.
  - intros [|a [|b [|]]] L H; try discriminate.
    pose proof (proj2 (H 0%nat ltac:(cbn; lia)) eq_refl) as H0. pose proof (proj1 (H 1%nat ltac:(cbn; lia)) eq_refl) as H1.
    pose proof (proj2 (H 2%nat ltac:(cbn; lia)) eq_refl) as H2. pose proof (proj1 (H 3%nat ltac:(cbn; lia)) eq_refl) as H3.
    unfold affine in H0, H1, H2, H3. cbn in H0, H1, H2, H3. assert (a = 0) by lra. assert (b = 0) by lra. subst.
    intros i Hi. unfold affine. destruct i as [|[|[|[|i]]]]; [cbn; lra..|cbn in Hi; lia].
  - cbn. lra.
Qed.

(** ** Versicolor against Virginica *)
Definition weight (i : nat) : Z :=
  (1 + (if (i =? 20)%nat then 1596 else 0) + (if (i =? 27)%nat then 1910 else 0) + (if (i =? 33)%nat then 2758 else 0) + (if (i =? 77)%nat then 3672 else 0) + (if (i =? 83)%nat then 2592 else 0))%Z.
Definition zside (i : nat) : Z := (if (i <? 50)%nat then -1 else 1)%Z.
Fixpoint zsum (n : nat) (f : nat -> Z) : Z := match n with O => 0%Z | S n' => (zsum n' f + f n')%Z end.
Lemma zsum_R n f : sumR n (fun i => IZR (f i)) = IZR (zsum n f).
Proof. induction n as [|n IH]; cbn [sumR zsum]; [reflexivity|]. now rewrite IH, plus_IZR. Qed.
Definition cell (i k : nat) : Z := Z.of_nat (nth k (nth (50 + i) iris_table []) 0%nat).
Lemma balance : zsum 100 (fun i => weight i * zside i)%Z = 0%Z /\ forall k, (k < 4)%nat -> zsum 100 (fun i => weight i * zside i * cell i k)%Z = 0%Z.
Proof. split; [vm_compute; reflexivity|]. intros [|[|[|[|k]]]] H; [vm_compute; reflexivity..|lia]. Qed.
Lemma iris12_affine v i : (i < 100)%nat -> affine v (nth i (mrows iris_X12) []) =
  nth 0 v 0 + sumR 4 (fun k => nth (S k) v 0 * (IZR (cell i k) / 10)).
Proof.
  intros Hi. rewrite iris12_row by exact Hi. destruct (iris_row (50 + i) ltac:(lia)) as (a & b & c & d & E1 & E2).
  unfold cell. rewrite E1, E2. unfold affine. cbn [length sumR nth]. rewrite !INR_IZR_INZ. ring.
Qed.
Lemma iris12_label i : (i < 100)%nat -> nth i iris_y12 0 = if (i <? 50)%nat then 0 else 1.
Proof. intros Hi. do 100 (destruct i as [|i]; [reflexivity|]). lia. Qed.
Lemma weight_pos i : 1 <= IZR (weight i).
Proof.
  apply (IZR_le 1). unfold weight. repeat match goal with |- context [if ?b then _ else _] => destruct b end; lia.
Qed.
Theorem iris12_overlap : overlap iris_X12 iris_y12.
Proof.
  destruct iris12_shape as (_ & Nr & Nc & _). intros v Lv H i Hi. rewrite Nr in *.
  set (t := fun i => IZR (weight i) * (IZR (zside i) * affine v (nth i (mrows iris_X12) []))).
  assert (P : forall j, (j < 100)%nat -> 0 <= IZR (zside j) * affine v (nth j (mrows iris_X12) [])).
  { intros j Hj. specialize (H j Hj). rewrite iris12_label in H by exact Hj. unfold zside. destruct (j <? 50)%nat.
    - pose proof (proj2 H eq_refl). lra.
    - pose proof (proj1 H eq_refl). lra. }
  assert (Z : sumR 100 t = 0).
  { destruct balance as (B0 & B).
    rewrite (sumR_ext 100 t (fun j => nth 0 v 0 * IZR (weight j * zside j) + sumR 4 (fun k => nth (S k) v 0 / 10 * IZR (weight j * zside j * cell j k)))).
    2: { intros j Hj. unfold t. rewrite iris12_affine by exact Hj. rewrite !mult_IZR. cbn [sumR]. rewrite !mult_IZR. field. }
    rewrite sumR_plus, sumR_scal, zsum_R, B0, sumR_exch. rewrite sumR_zero; [lra|]. intros k Hk. rewrite sumR_scal, zsum_R, B by exact Hk. lra. }
  assert (T : t i = 0).
  { apply (sumR_zero_inv 100 t); auto. intros j Hj. unfold t. pose proof (weight_pos j). apply Rmult_le_pos; [lra|now apply P]. }
  unfold t in T. pose proof (weight_pos i). apply Rmult_integral in T. destruct T as [T|T]; [lra|]. unfold zside in T. destruct (i <? 50)%nat; lra.
Qed.
Lemma iris12_spans : spans iris_X12.
Proof.
  destruct iris12_shape as (_ & Nr & Nc & _). intros q Lq Z. rewrite Nc in *. destruct q as [|q0 [|q1 [|q2 [|q3 [|q4 [|]]]]]]; try discriminate.
  assert (V : forall i, (i < 100)%nat -> q0 + sumR 4 (fun k => nth (S k) [q0; q1; q2; q3; q4] 0 * (IZR (cell i k) / 10)) = 0).
  { intros i Hi. rewrite <- (Z (nth i (mrows iris_X12) [])); [now rewrite iris12_affine|]. apply nth_In. unfold nrows in Nr. now rewrite Nr. }
  assert (V0 := V 0%nat ltac:(lia)). assert (V1 := V 1%nat ltac:(lia)). assert (V2 := V 20%nat ltac:(lia)). assert (V3 := V 77%nat ltac:(lia)). assert (V4 := V 83%nat ltac:(lia)).
  cbn [sumR nth] in *.
  repeat match goal with H : context [cell ?i ?k] |- _ => let z := eval vm_compute in (cell i k) in change (cell i k) with z in H end.
  cbn [repeat]. assert (q0 = 0) by lra. assert (q1 = 0) by lra. assert (q2 = 0) by lra. assert (q3 = 0) by lra. assert (q4 = 0) by lra. now subst.
Qed.
Lemma iris12_labels : labels iris_y12.
Proof. intros i Hi. destruct iris12_shape as (_ & _ & _ & L). rewrite L in Hi. rewrite iris12_label by exact Hi. destruct (i <? 50)%nat; auto. Qed.
Theorem iris12_best : exists p, best_fit iris_X12 iris_y12 p /\ forall q, best_fit iris_X12 iris_y12 q -> q = p.
Proof.
  destruct iris12_shape as (W & Nr & Nc & L).
  destruct (best_exists iris_X12 iris_y12 W ltac:(lia) ltac:(lia) iris12_labels iris12_spans) as (E & U).
  destruct (proj2 E iris12_overlap) as (p & B). exists p. split; [exact B|]. intros q Q. exact (U q p Q B).
Qed.
Lemma glm_best_ex : inverse_sound inverse2 /\ mwf X0011 /\
  glm_pass inverse2 Bernoulli (with_ones X0011) [0; 1; 0; 1] [1/2; 1/2; 1/2; 1/2] [-2; 2; -2; 2] = Ok ([0; 0], [1/2; 1/2; 1/2; 1/2], [-2; 2; -2; 2]) /\
  (forall i, (i < 4)%nat -> 1 / 10 ^ 5 <= nth i [1/2; 1/2; 1/2; 1/2] 0 * (1 - nth i [1/2; 1/2; 1/2; 1/2] 0)).
Proof.
  split; [exact inverse2_sound|]. split; [repeat constructor|]. split; [exact fixed_ex_bernoulli|].
  intros [|[|[|[|i]]]] Hi; [cbn; lra..|lia].
Qed.
