(** Naive Bayes training as penalised maximum likelihood. *)
From Coq Require Import List Arith Lia Bool Reals Lra.
From Verif Require Import Base BaseLemmas Num NumFn Linalg LinalgR Spec_Calc Model_NaiveBayes Spec_NaiveBayes Proof_KMeans Proof_KMeans3 Spec_NBFit.
Import ListNotations.
Local Open Scope R_scope.

Lemma ln_tangent x : 0 < x -> ln x <= x - 1 /\ (ln x = x - 1 -> x = 1).
Proof.
  intros Hx. destruct (Req_dec (ln x) 0) as [E|N].
  - assert (x = 1) by (rewrite <- (exp_ln x Hx), E; apply exp_0). subst. split; [lra|auto].
  - pose proof (exp_ineq1 (ln x) N) as H. rewrite exp_ln in H by exact Hx. split; [lra|]. intros. lra.
Qed.

Lemma sum_le_eq n f g : (forall i, (i < n)%nat -> f i <= g i) -> sumR n f = sumR n g -> forall i, (i < n)%nat -> f i = g i.
Proof.
  intros H E i Hi. assert (K := sumR_zero_inv n (fun i => g i - f i)). cbv beta in K. specialize (K ltac:(intros j Hj; specialize (H j Hj); lra)).
  rewrite sumR_minus in K. specialize (K ltac:(lra) i Hi). lra.
Qed.

(** Gibbs' inequality with weights [a]. *)
Lemma gibbs n a p : (forall i, (i < n)%nat -> 0 <= a i) -> 0 < sumR n a -> (forall i, (i < n)%nat -> 0 < p i) -> sumR n p = 1 ->
  sumR n (fun i => a i * ln (p i)) <= sumR n (fun i => a i * ln (a i / sumR n a)) /\
  (sumR n (fun i => a i * ln (p i)) = sumR n (fun i => a i * ln (a i / sumR n a)) -> forall i, (i < n)%nat -> p i = a i / sumR n a).
Proof.
  intros Ha HA Hp Ep. set (A := sumR n a) in *.
  assert (T : forall i, (i < n)%nat -> a i * ln (p i) - a i * ln (a i / A) <= p i * A - a i /\
    (a i * ln (p i) - a i * ln (a i / A) = p i * A - a i -> p i = a i / A)).
  { intros i Hi. pose proof (Ha i Hi) as Hai. pose proof (Hp i Hi) as Hpi. destruct (Req_dec (a i) 0) as [Z|Z].
    - rewrite Z. assert (0 < p i * A) by (apply Rmult_lt_0_compat; auto). split; [lra|]. intros E. lra.
    - assert (Hpos : 0 < a i) by lra. assert (Hx : 0 < p i * A / a i) by (apply Rdiv_lt_0_compat; auto; apply Rmult_lt_0_compat; auto).
      destruct (ln_tangent _ Hx) as [L1 L2].
      assert (El : ln (p i * A / a i) = ln (p i) - ln (a i / A)).
      { unfold Rdiv. rewrite ln_mult by (auto using Rinv_0_lt_compat, Rmult_lt_0_compat). rewrite (ln_mult (p i)), (ln_mult (a i)), !ln_Rinv by (auto using Rinv_0_lt_compat). lra. }
      rewrite El in *. assert (Em : a i * (p i * A / a i - 1) = p i * A - a i) by (field; lra).
      split.
      + rewrite <- Em, <- Rmult_minus_distr_l. apply Rmult_le_compat_l; auto.
      + intros E. rewrite <- Em, <- Rmult_minus_distr_l in E. apply Rmult_eq_reg_l in E; [|lra]. specialize (L2 E).
        apply Rmult_eq_reg_r with (A / a i); [|assert (0 < A / a i) by (apply Rdiv_lt_0_compat; auto); lra].
        replace (p i * (A / a i)) with (p i * A / a i) by (unfold Rdiv; ring). rewrite L2. field. lra. }
  assert (S0 : sumR n (fun i => p i * A - a i) = 0).
  { rewrite sumR_minus. rewrite (sumR_ext n (fun i => p i * A) (fun i => A * p i)) by (intros; ring). rewrite sumR_scal, Ep. unfold A. lra. }
  assert (S1 : sumR n (fun i => a i * ln (p i)) - sumR n (fun i => a i * ln (a i / A)) = sumR n (fun i => a i * ln (p i) - a i * ln (a i / A))) by (now rewrite sumR_minus).
  split.
  - assert (sumR n (fun i => a i * ln (p i) - a i * ln (a i / A)) <= sumR n (fun i => p i * A - a i)) by (apply sumR_le; intros i Hi; apply T; auto). lra.
  - intros E i Hi. apply T; auto. apply (sum_le_eq n (fun i => a i * ln (p i) - a i * ln (a i / A)) (fun i => p i * A - a i)); auto; [|lra].
    intros j Hj. apply T; auto.
Qed.

(** Two outcomes. *)
Lemma gibbs2 a b p : 0 <= a -> 0 <= b -> 0 < a + b -> 0 < p < 1 ->
  a * ln p + b * ln (1 - p) <= a * ln (a / (a + b)) + b * ln (1 - a / (a + b)) /\
  (a * ln p + b * ln (1 - p) = a * ln (a / (a + b)) + b * ln (1 - a / (a + b)) -> p = a / (a + b)).
Proof.
  intros Ha Hb Hab Hp.
  destruct (gibbs 2 (fun i => if (i =? 0)%nat then a else b) (fun i => if (i =? 0)%nat then p else 1 - p)) as [G1 G2]; cbn in *.
  - intros i _. destruct (i =? 0)%nat; auto.
  - lra.
  - intros i _. destruct (i =? 0)%nat; lra.
  - lra.
  - replace (0 + a + b) with (a + b) in * by lra.
    replace (1 - a / (a + b)) with (b / (a + b)) by (field; lra).
    split; [lra|]. intros E. exact (G2 ltac:(lra) 0%nat ltac:(lia)).
Qed.

(** Weighted normal log-likelihood: [w] observations with squared deviations [s]. *)
Lemma normal_best w s v : 0 < w -> 0 < s -> 0 < v ->
  - (w / 2) * ln v - s / (2 * v) <= - (w / 2) * ln (s / w) - w / 2 /\
  (- (w / 2) * ln v - s / (2 * v) = - (w / 2) * ln (s / w) - w / 2 -> v = s / w).
Proof.
  intros Hw Hs Hv. assert (Hx : 0 < s / w / v) by (repeat apply Rdiv_lt_0_compat; auto). destruct (ln_tangent _ Hx) as [L1 L2].
  assert (El : ln (s / w / v) = ln (s / w) - ln v).
  { unfold Rdiv at 1. rewrite ln_mult, ln_Rinv; auto using Rinv_0_lt_compat. apply Rdiv_lt_0_compat; auto. }
  rewrite El in *. assert (Em : s / (2 * v) = w / 2 * (s / w / v)) by (field; lra). rewrite Em. split.
  - assert (w / 2 * (ln (s / w) - ln v) <= w / 2 * (s / w / v - 1)) by (apply Rmult_le_compat_l; lra). lra.
  - intros E. assert (E' : w / 2 * (ln (s / w) - ln v) = w / 2 * (s / w / v - 1)) by lra. apply Rmult_eq_reg_l in E'; [|lra].
    specialize (L2 E'). apply Rmult_eq_reg_r with (/ v); [|apply Rinv_neq_0_compat; lra]. rewrite Rinv_r by lra. symmetry. exact L2.
Qed.

Section Fit.
  Context (inputs : matrix R) (cs : list nat) (k : nat).
  Hypothesis Hc : forall i, (i < nrows inputs)%nat -> (nth i cs 0%nat < k)%nat.
  Let n := nrows inputs.
  Let d := mcols inputs.
  Let cls (i : nat) : nat := nth i cs 0%nat.
  Let sel (c i : nat) (x : R) : R := if (cls i =? c)%nat then x else 0.

  Lemma by_class (g : nat -> nat -> R) : sumR n (fun i => g i (cls i)) = sumR k (fun c => sumR n (fun i => sel c i (g i c))).
  Proof.
    rewrite <- sumR_exch. apply sumR_ext. intros i Hi. unfold sel. symmetry. apply (sumR_pick k (fun c => g i c)). now apply Hc.
  Qed.
  Lemma sum_sel c x : sumR n (fun i => sel c i x) = cnt inputs cs c * x.
  Proof.
    unfold cnt. rewrite Rmult_comm, <- sumR_scal. apply sumR_ext. intros i _. unfold sel, cls. destruct (_ =? _)%nat; lra.
  Qed.
  Lemma split_fit (q : nat -> R) (g : nat -> nat -> nat -> R) :
    sumR n (fun i => ln (q (cls i)) + sumR d (fun j => g i (cls i) j)) =
    sumR k (fun c => cnt inputs cs c * ln (q c)) + sumR k (fun c => sumR d (fun j => sumR n (fun i => sel c i (g i c j)))).
  Proof.
    rewrite sumR_plus. f_equal.
    - rewrite (by_class (fun _ c => ln (q c))). apply sumR_ext. intros c _. apply sum_sel.
    - rewrite (by_class (fun i c => sumR d (fun j => g i c j))). apply sumR_ext. intros c _. rewrite sumR_exch. apply sumR_ext. intros i _.
      unfold sel. destruct (cls i =? c)%nat; auto. symmetry. apply sumR_zero. auto.
  Qed.
  Lemma cnt_total : sumR k (cnt inputs cs) = INR n.
  Proof.
    transitivity (sumR n (fun _ => 1)); [|rewrite sumR_const; lra]. rewrite (by_class (fun _ _ => 1)). apply sumR_ext. intros c _. rewrite sum_sel. lra.
  Qed.
  Lemma cnt_nonneg c : 0 <= cnt inputs cs c.
  Proof. apply sumR_ge0. intros i _. destruct (_ =? _)%nat; lra. Qed.

  Lemma prior_best q : (0 < n)%nat -> class_probs k q ->
    sumR k (fun c => cnt inputs cs c * ln (q c)) <= sumR k (fun c => cnt inputs cs c * ln (prior inputs cs c)) /\
    (sumR k (fun c => cnt inputs cs c * ln (q c)) = sumR k (fun c => cnt inputs cs c * ln (prior inputs cs c)) -> forall c, (c < k)%nat -> q c = prior inputs cs c).
  Proof.
    intros Hn [Hq Eq]. destruct (gibbs k (cnt inputs cs) q) as [G1 G2]; auto.
    - intros; apply cnt_nonneg.
    - rewrite cnt_total. now apply lt_0_INR.
    - rewrite cnt_total in *. split; auto.
  Qed.

  (** *** Bernoulli *)
  Lemma bern_cell p c j : sumR n (fun i => sel c i (entry inputs i j * ln (p c j) + (1 - entry inputs i j) * ln (1 - p c j))) =
    csum inputs cs c j * ln (p c j) + (cnt inputs cs c - csum inputs cs c j) * ln (1 - p c j).
  Proof.
    transitivity (sumR n (fun i => ln (p c j) * sel c i (entry inputs i j) + (ln (1 - p c j) * sel c i 1 - ln (1 - p c j) * sel c i (entry inputs i j)))).
    - apply sumR_ext. intros i _. unfold sel. destruct (_ =? _)%nat; lra.
    - rewrite sumR_plus, sumR_minus, !sumR_scal, sum_sel. change (sumR n (fun i => sel c i (entry inputs i j))) with (csum inputs cs c j). ring.
  Qed.
  Lemma bern_fit_eq q p : bern_fit inputs cs k q p =
    sumR k (fun c => cnt inputs cs c * ln (q c)) +
    sumR k (fun c => sumR d (fun j => (csum inputs cs c j + 1) * ln (p c j) + (cnt inputs cs c - csum inputs cs c j + 1) * ln (1 - p c j))).
  Proof.
    refine (eq_trans (f_equal2 Rplus (split_fit q (fun i c j => entry inputs i j * ln (p c j) + (1 - entry inputs i j) * ln (1 - p c j))) eq_refl) _). fold d.
    rewrite Rplus_assoc. f_equal. rewrite <- sumR_plus. apply sumR_ext. intros c _. rewrite <- sumR_plus. apply sumR_ext. intros j _.
    rewrite bern_cell. lra.
  Qed.
  Lemma csum_range c j : (forall i, (i < n)%nat -> 0 <= entry inputs i j <= 1) -> 0 <= csum inputs cs c j <= cnt inputs cs c.
  Proof.
    intros H. unfold csum, cnt. split.
    - apply sumR_ge0. intros i Hi. specialize (H i Hi). destruct (_ =? _)%nat; lra.
    - apply sumR_le. intros i Hi. specialize (H i Hi). destruct (_ =? _)%nat; lra.
  Qed.
  Lemma bern_best q p : (0 < n)%nat -> (forall i j, (i < n)%nat -> (j < d)%nat -> 0 <= entry inputs i j <= 1) -> class_probs k q -> bern_probs inputs k p ->
    bern_fit inputs cs k q p <= bern_fit inputs cs k (prior inputs cs) (bern_p inputs cs) /\
    (bern_fit inputs cs k q p = bern_fit inputs cs k (prior inputs cs) (bern_p inputs cs) ->
     (forall c, (c < k)%nat -> q c = prior inputs cs c) /\ forall c j, (c < k)%nat -> (j < d)%nat -> p c j = bern_p inputs cs c j).
  Proof.
    intros Hn Hx Hq Hp. rewrite !bern_fit_eq. destruct (prior_best q Hn Hq) as [P1 P2].
    set (g := fun (p : nat -> nat -> R) c j => (csum inputs cs c j + 1) * ln (p c j) + (cnt inputs cs c - csum inputs cs c j + 1) * ln (1 - p c j)).
    assert (G : forall c j, (c < k)%nat -> (j < d)%nat -> g p c j <= g (bern_p inputs cs) c j /\ (g p c j = g (bern_p inputs cs) c j -> p c j = bern_p inputs cs c j)).
    { intros c j Hcc Hj. destruct (csum_range c j ltac:(auto)) as [R1 R2].
      destruct (gibbs2 (csum inputs cs c j + 1) (cnt inputs cs c - csum inputs cs c j + 1) (p c j)) as [G1 G2]; try lra; [apply Hp; auto|].
      unfold g, bern_p. replace (csum inputs cs c j + 1 + (cnt inputs cs c - csum inputs cs c j + 1)) with (cnt inputs cs c + 2) in * by lra. auto. }
    assert (S : sumR k (fun c => sumR d (g p c)) <= sumR k (fun c => sumR d (g (bern_p inputs cs) c))).
    { apply sumR_le. intros c Hcc. apply sumR_le. intros j Hj. apply G; auto. }
    change (fun c => sumR d (fun j => (csum inputs cs c j + 1) * ln (p c j) + (cnt inputs cs c - csum inputs cs c j + 1) * ln (1 - p c j))) with (fun c => sumR d (g p c)).
    change (fun c => sumR d (fun j => (csum inputs cs c j + 1) * ln (bern_p inputs cs c j) + (cnt inputs cs c - csum inputs cs c j + 1) * ln (1 - bern_p inputs cs c j))) with (fun c => sumR d (g (bern_p inputs cs) c)).
    split; [lra|]. intros E. split; [apply P2; lra|]. intros c j Hcc Hj. apply G; auto.
    apply (sum_le_eq d (g p c) (g (bern_p inputs cs) c)); auto; [intros; apply G; auto|].
    apply (sum_le_eq k (fun c => sumR d (g p c)) (fun c => sumR d (g (bern_p inputs cs) c))); auto; [|lra].
    intros c' Hc'. apply sumR_le. intros j' Hj'. apply G; auto.
  Qed.

  (** *** Multinomial *)
  Lemma mult_fit_eq q p : mult_fit inputs cs k q p =
    sumR k (fun c => cnt inputs cs c * ln (q c)) + sumR k (fun c => sumR d (fun j => (csum inputs cs c j + 1) * ln (p c j))).
  Proof.
    refine (eq_trans (f_equal2 Rplus (split_fit q (fun i c j => entry inputs i j * ln (p c j))) eq_refl) _). fold d.
    rewrite Rplus_assoc. f_equal. rewrite <- sumR_plus. apply sumR_ext. intros c _. rewrite <- sumR_plus. apply sumR_ext. intros j _.
    rewrite Rmult_plus_distr_r, Rmult_1_l. f_equal. unfold csum. rewrite Rmult_comm, <- sumR_scal. apply sumR_ext. intros i _. unfold sel, cls. destruct (_ =? _)%nat; lra.
  Qed.
  Lemma mult_best q p : (0 < n)%nat -> (0 < d)%nat -> (forall i j, (i < n)%nat -> (j < d)%nat -> 0 <= entry inputs i j) -> class_probs k q -> mult_probs inputs k p ->
    mult_fit inputs cs k q p <= mult_fit inputs cs k (prior inputs cs) (mult_p inputs cs) /\
    (mult_fit inputs cs k q p = mult_fit inputs cs k (prior inputs cs) (mult_p inputs cs) ->
     (forall c, (c < k)%nat -> q c = prior inputs cs c) /\ forall c j, (c < k)%nat -> (j < d)%nat -> p c j = mult_p inputs cs c j).
  Proof.
    intros Hn Hd Hx Hq [Hp1 Hp2]. rewrite !mult_fit_eq. destruct (prior_best q Hn Hq) as [P1 P2].
    set (g := fun (p : nat -> nat -> R) c j => (csum inputs cs c j + 1) * ln (p c j)).
    assert (C0 : forall c j, (j < d)%nat -> 0 <= csum inputs cs c j).
    { intros c j Hj. apply sumR_ge0. intros i Hi. specialize (Hx i j Hi Hj). destruct (_ =? _)%nat; lra. }
    assert (G : forall c, (c < k)%nat -> sumR d (g p c) <= sumR d (g (mult_p inputs cs) c) /\ (sumR d (g p c) = sumR d (g (mult_p inputs cs) c) -> forall j, (j < d)%nat -> p c j = mult_p inputs cs c j)).
    { intros c Hcc. apply (gibbs d (fun j => csum inputs cs c j + 1) (p c)); auto.
      - intros j Hj. specialize (C0 c j Hj). lra.
      - apply Rlt_le_trans with (csum inputs cs c 0 + 1); [specialize (C0 c 0%nat Hd); lra|].
        apply (sumR_ge_term d (fun j => csum inputs cs c j + 1)); auto. intros j Hj. specialize (C0 c j Hj). lra. }
    change (fun c => sumR d (fun j => (csum inputs cs c j + 1) * ln (p c j))) with (fun c => sumR d (g p c)).
    change (fun c => sumR d (fun j => (csum inputs cs c j + 1) * ln (mult_p inputs cs c j))) with (fun c => sumR d (g (mult_p inputs cs) c)).
    assert (S : sumR k (fun c => sumR d (g p c)) <= sumR k (fun c => sumR d (g (mult_p inputs cs) c))) by (apply sumR_le; intros c Hcc; apply G; auto).
    split; [lra|]. intros E. split; [apply P2; lra|]. intros c j Hcc Hj. apply G; auto.
    apply (sum_le_eq k (fun c => sumR d (g p c)) (fun c => sumR d (g (mult_p inputs cs) c))); auto; [|lra].
    intros c' Hc'. apply G; auto.
  Qed.

  (** *** Gaussian *)
  Definition dev (mu : nat -> nat -> R) (c j : nat) : R := sumR n (fun i => sel c i ((entry inputs i j - mu c j) ^ 2)).
  Lemma ln_normal mu v x : 0 < v -> ln (normal_pdf mu v x) = - (ln (2 * PI) / 2) - ln v / 2 - (x - mu) ^ 2 / (2 * v).
  Proof.
    intros Hv. unfold normal_pdf. assert (0 < 2 * PI) by (pose proof PI_RGT_0; lra). assert (0 < 2 * PI * v) by (apply Rmult_lt_0_compat; auto).
    unfold Rdiv at 1. rewrite ln_mult, ln_exp, ln_Rinv by (auto using exp_pos, Rinv_0_lt_compat, sqrt_lt_R0).
    assert (E : ln (sqrt (2 * PI * v)) = ln (2 * PI * v) / 2).
    { rewrite <- (sqrt_sqrt (2 * PI * v)) at 2 by lra. rewrite ln_mult by (now apply sqrt_lt_R0). lra. }
    rewrite E, ln_mult by auto. unfold Rdiv. lra.
  Qed.
  Lemma gauss_cell mu v c j : 0 < v c j -> sumR n (fun i => sel c i (ln (normal_pdf (mu c j) (v c j) (entry inputs i j)))) =
    - (cnt inputs cs c * (ln (2 * PI) / 2)) - cnt inputs cs c / 2 * ln (v c j) - dev mu c j / (2 * v c j).
  Proof.
    intros Hv. transitivity (sumR n (fun i => sel c i (- (ln (2 * PI) / 2) - ln (v c j) / 2) - / (2 * v c j) * sel c i ((entry inputs i j - mu c j) ^ 2))).
    - apply sumR_ext. intros i _. unfold sel. destruct (_ =? _)%nat; [|lra]. rewrite ln_normal by auto. unfold Rdiv. lra.
    - rewrite sumR_minus, sum_sel, sumR_scal. fold (dev mu c j). unfold Rdiv. ring.
  Qed.
  Lemma gauss_lik_eq q mu v : variances inputs k v -> gauss_lik inputs cs q mu v =
    sumR k (fun c => cnt inputs cs c * ln (q c)) +
    sumR k (fun c => sumR d (fun j => - (cnt inputs cs c * (ln (2 * PI) / 2)) - cnt inputs cs c / 2 * ln (v c j) - dev mu c j / (2 * v c j))).
  Proof.
    intros Hv. refine (eq_trans (split_fit q (fun i c j => ln (normal_pdf (mu c j) (v c j) (entry inputs i j)))) _). f_equal.
    apply sumR_ext. intros c Hcc. apply sumR_ext. intros j Hj. apply gauss_cell. apply Hv; auto.
  Qed.
  Lemma dev_min mu c j : 0 < cnt inputs cs c -> dev mu c j = dev (cls_mean inputs cs) c j + cnt inputs cs c * (mu c j - cls_mean inputs cs c j) ^ 2.
  Proof.
    intros Hcn. unfold dev. set (m := cls_mean inputs cs c j).
    transitivity (sumR n (fun i => sel c i ((entry inputs i j - m) ^ 2) + (sel c i ((mu c j - m) ^ 2) - 2 * (mu c j - m) * (sel c i (entry inputs i j) - sel c i m)))).
    - apply sumR_ext. intros i _. unfold sel. destruct (_ =? _)%nat; [ring|lra].
    - rewrite sumR_plus, sumR_minus, sumR_scal, sumR_minus, !sum_sel.
      assert (E : sumR n (fun i => sel c i (entry inputs i j)) = cnt inputs cs c * m) by (unfold m, cls_mean, csum; fold n; unfold sel, cls; field; lra).
      rewrite E. ring.
  Qed.
  Lemma gauss_free_eq q mu v : variances inputs k v -> gauss_fit_free inputs cs k q mu v =
    sumR k (fun c => cnt inputs cs c * ln (q c)) +
    sumR k (fun c => sumR d (fun j => - (cnt inputs cs c * (ln (2 * PI) / 2)) + (- ((cnt inputs cs c - 1) / 2) * ln (v c j) - dev mu c j / (2 * v c j)))).
  Proof.
    intros Hv. unfold gauss_fit_free. rewrite gauss_lik_eq by exact Hv. fold d. rewrite Rplus_assoc. f_equal. rewrite <- sumR_plus. apply sumR_ext. intros c _.
    rewrite <- sumR_plus. apply sumR_ext. intros j _. lra.
  Qed.
  Lemma var_dev c j : cls_var inputs cs c j = dev (cls_mean inputs cs) c j / (cnt inputs cs c - 1).
  Proof. unfold cls_var, dev. reflexivity. Qed.

  Hypothesis H2 : forall c, (c < k)%nat -> 2 <= cnt inputs cs c.
  Hypothesis Hvar : forall c j, (c < k)%nat -> (j < d)%nat -> 0 < cls_var inputs cs c j.

  Lemma dev_pos c j : (c < k)%nat -> (j < d)%nat -> 0 < dev (cls_mean inputs cs) c j.
  Proof.
    intros Hcc Hj. pose proof (Hvar c j Hcc Hj) as V. rewrite var_dev in V. pose proof (H2 c Hcc).
    replace (dev (cls_mean inputs cs) c j) with (dev (cls_mean inputs cs) c j / (cnt inputs cs c - 1) * (cnt inputs cs c - 1)) by (field; lra).
    apply Rmult_lt_0_compat; lra.
  Qed.
  Lemma gauss_best q mu v : (0 < n)%nat -> class_probs k q -> variances inputs k v ->
    gauss_fit_free inputs cs k q mu v <= gauss_fit_free inputs cs k (prior inputs cs) (cls_mean inputs cs) (cls_var inputs cs) /\
    (gauss_fit_free inputs cs k q mu v = gauss_fit_free inputs cs k (prior inputs cs) (cls_mean inputs cs) (cls_var inputs cs) ->
     (forall c, (c < k)%nat -> q c = prior inputs cs c) /\
     forall c j, (c < k)%nat -> (j < d)%nat -> mu c j = cls_mean inputs cs c j /\ v c j = cls_var inputs cs c j).
  Proof.
    intros Hn Hq Hv. rewrite !gauss_free_eq by auto. destruct (prior_best q Hn Hq) as [P1 P2].
    set (g := fun (mu v : nat -> nat -> R) c j => - (cnt inputs cs c * (ln (2 * PI) / 2)) + (- ((cnt inputs cs c - 1) / 2) * ln (v c j) - dev mu c j / (2 * v c j))).
    assert (G : forall c j, (c < k)%nat -> (j < d)%nat -> g mu v c j <= g (cls_mean inputs cs) (cls_var inputs cs) c j /\
      (g mu v c j = g (cls_mean inputs cs) (cls_var inputs cs) c j -> mu c j = cls_mean inputs cs c j /\ v c j = cls_var inputs cs c j)).
    { intros c j Hcc Hj. pose proof (H2 c Hcc) as Hw. pose proof (dev_pos c j Hcc Hj) as Hs. pose proof (Hv c j Hcc Hj) as Hvv.
      destruct (normal_best (cnt inputs cs c - 1) (dev (cls_mean inputs cs) c j) (v c j) ltac:(lra) Hs Hvv) as [N1 N2].
      unfold g. rewrite (dev_min mu) by lra. rewrite var_dev.
      assert (E1 : dev (cls_mean inputs cs) c j / (2 * (dev (cls_mean inputs cs) c j / (cnt inputs cs c - 1))) = (cnt inputs cs c - 1) / 2) by (field; lra).
      rewrite E1.
      assert (E2 : (dev (cls_mean inputs cs) c j + cnt inputs cs c * (mu c j - cls_mean inputs cs c j) ^ 2) / (2 * v c j) =
        dev (cls_mean inputs cs) c j / (2 * v c j) + cnt inputs cs c / (2 * v c j) * (mu c j - cls_mean inputs cs c j) ^ 2) by (field; lra).
      rewrite E2. assert (Hk : 0 < cnt inputs cs c / (2 * v c j)) by (apply Rdiv_lt_0_compat; lra).
      assert (H0 : 0 <= cnt inputs cs c / (2 * v c j) * (mu c j - cls_mean inputs cs c j) ^ 2) by (apply Rmult_le_pos; [lra|apply pow2_ge_0]).
      split; [lra|]. intros E.
      assert (Z : cnt inputs cs c / (2 * v c j) * (mu c j - cls_mean inputs cs c j) ^ 2 = 0) by lra.
      split; [|apply N2; lra].
      apply Rmult_integral in Z. destruct Z as [Z|Z]; [lra|]. simpl in Z. rewrite Rmult_1_r in Z. apply Rmult_integral in Z. destruct Z; lra. }
    assert (S : sumR k (fun c => sumR d (g mu v c)) <= sumR k (fun c => sumR d (g (cls_mean inputs cs) (cls_var inputs cs) c))).
    { apply sumR_le. intros c Hcc. apply sumR_le. intros j Hj. apply G; auto. }
    change (sumR k (fun c => cnt inputs cs c * ln (q c)) + sumR k (fun c => sumR d (g mu v c)) <=
      sumR k (fun c => cnt inputs cs c * ln (prior inputs cs c)) + sumR k (fun c => sumR d (g (cls_mean inputs cs) (cls_var inputs cs) c)) /\
      (sumR k (fun c => cnt inputs cs c * ln (q c)) + sumR k (fun c => sumR d (g mu v c)) =
      sumR k (fun c => cnt inputs cs c * ln (prior inputs cs c)) + sumR k (fun c => sumR d (g (cls_mean inputs cs) (cls_var inputs cs) c)) ->
     (forall c, (c < k)%nat -> q c = prior inputs cs c) /\
     forall c j, (c < k)%nat -> (j < d)%nat -> mu c j = cls_mean inputs cs c j /\ v c j = cls_var inputs cs c j)).
    split; [lra|]. intros E. split; [apply P2; lra|]. intros c j Hcc Hj. apply G; auto.
    apply (sum_le_eq d (g mu v c) (g (cls_mean inputs cs) (cls_var inputs cs) c)); auto; [intros; apply G; auto|].
    apply (sum_le_eq k (fun c => sumR d (g mu v c)) (fun c => sumR d (g (cls_mean inputs cs) (cls_var inputs cs) c))); auto; [|lra].
    intros c' Hc'. apply sumR_le. intros j' Hj'. apply G; auto.
  Qed.

  (** The plain likelihood prefers variances that are smaller by the factor [1 - 1/count]. *)
  Lemma gauss_not_ml : (0 < k)%nat -> (0 < d)%nat ->
    gauss_lik inputs cs (prior inputs cs) (cls_mean inputs cs) (cls_var inputs cs) <
    gauss_lik inputs cs (prior inputs cs) (cls_mean inputs cs) (fun c j => cls_var inputs cs c j * (1 - 1 / cnt inputs cs c)).
  Proof.
    intros Hk Hd.
    assert (Hf : forall c, (c < k)%nat -> 0 < 1 - 1 / cnt inputs cs c).
    { intros c Hcc. pose proof (H2 c Hcc). replace (1 - 1 / cnt inputs cs c) with ((cnt inputs cs c - 1) / cnt inputs cs c) by (field; lra). apply Rdiv_lt_0_compat; lra. }
    rewrite !gauss_lik_eq; auto.
    2:{ intros c j Hcc Hj. apply Rmult_lt_0_compat; auto. }
    apply Rplus_lt_compat_l.
    assert (G : forall c j, (c < k)%nat -> (j < d)%nat ->
      - (cnt inputs cs c * (ln (2 * PI) / 2)) - cnt inputs cs c / 2 * ln (cls_var inputs cs c j) - dev (cls_mean inputs cs) c j / (2 * cls_var inputs cs c j) <
      - (cnt inputs cs c * (ln (2 * PI) / 2)) - cnt inputs cs c / 2 * ln (cls_var inputs cs c j * (1 - 1 / cnt inputs cs c)) - dev (cls_mean inputs cs) c j / (2 * (cls_var inputs cs c j * (1 - 1 / cnt inputs cs c)))).
    { intros c j Hcc Hj. pose proof (H2 c Hcc) as Hw. pose proof (dev_pos c j Hcc Hj) as Hs. pose proof (Hvar c j Hcc Hj) as Hv.
      pose proof (Hf c Hcc) as Hff. rewrite (ln_mult (cls_var inputs cs c j)) by auto.
      assert (E1 : dev (cls_mean inputs cs) c j / (2 * cls_var inputs cs c j) = (cnt inputs cs c - 1) / 2) by (rewrite var_dev; field; lra).
      assert (E2 : dev (cls_mean inputs cs) c j / (2 * (cls_var inputs cs c j * (1 - 1 / cnt inputs cs c))) = cnt inputs cs c / 2) by (rewrite var_dev; field; lra).
      rewrite E1, E2. destruct (ln_tangent (1 - 1 / cnt inputs cs c) Hff) as [L1 L2].
      assert (L : ln (1 - 1 / cnt inputs cs c) < - (1 / cnt inputs cs c)).
      { destruct (Rle_lt_or_eq_dec _ _ L1) as [L|L]; [lra|]. specialize (L2 L). assert (0 < 1 / cnt inputs cs c) by (apply Rdiv_lt_0_compat; lra). lra. }
      assert (cnt inputs cs c / 2 * ln (1 - 1 / cnt inputs cs c) < cnt inputs cs c / 2 * - (1 / cnt inputs cs c)) by (apply Rmult_lt_compat_l; lra).
      assert (cnt inputs cs c / 2 * - (1 / cnt inputs cs c) = - (1 / 2)) by (field; lra). lra. }
    assert (SL : forall m f g, (0 < m)%nat -> (forall i, (i < m)%nat -> f i < g i) -> sumR m f < sumR m g).
    { clear. intros m f g Hm H. destruct m as [|m]; [lia|]. cbn [sumR]. apply Rplus_le_lt_compat; [apply sumR_le; intros; left; apply H; lia|apply H; lia]. }
    apply SL; auto.
  Qed.
End Fit.
