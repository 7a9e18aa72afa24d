(** Trained naive Bayes models maximise their penalised likelihoods. *)
From Coq Require Import List Arith Lia Bool Reals Lra.
From Verif Require Import Base BaseLemmas Num NumFn Linalg LinalgR Spec_Calc Model_KMeans Model_NaiveBayes Spec_NaiveBayes Proof_NaiveBayes Proof_NaiveBayes2 Spec_NBFit Proof_NBFit Proof_NaiveBayesEx.
Import ListNotations.
Local Open Scope R_scope.

Section Tie.
  Context (inputs targets : matrix R) (cs : list nat).
  Hypothesis Wt : mwf targets.
  Hypothesis Ht : nrows targets = nrows inputs.
  Hypothesis HL : labelled targets cs.
  Hypothesis Hall : forall c, (c < mcols targets)%nat -> In c cs.
  Hypothesis Hk : (0 < mcols targets)%nat.
  Let k := mcols targets.

  Lemma cs_len : length cs = nrows inputs.
  Proof. rewrite <- Ht. unfold nrows. symmetry. clear - HL. unfold labelled in HL. induction HL; cbn; auto. Qed.
  Lemma cs_lt i : (i < nrows inputs)%nat -> (nth i cs 0 < k)%nat.
  Proof.
    intros Hi. rewrite <- Ht in Hi. unfold nrows in Hi. unfold k. unfold mwf in Wt. clear - HL Wt Hi. unfold labelled in HL. revert i Hi Wt.
    generalize (mcols targets) as w. induction HL as [|r c rs cs' H F IH]; intros w i Hi W; cbn in *; [lia|].
    inversion W; subst. destruct i as [|i]; [apply H|]. apply IH; auto. lia.
  Qed.
  Lemma rows_pos : (0 < nrows inputs)%nat.
  Proof. rewrite <- cs_len. specialize (Hall 0%nat Hk). destruct cs; [destruct Hall|cbn; lia]. Qed.
  Lemma prior_probs : class_probs k (prior inputs cs).
  Proof.
    pose proof rows_pos as Hn. assert (Hn' : 0 < INR (nrows inputs)) by now apply lt_0_INR. split.
    - intros c Hc. unfold prior. apply Rdiv_lt_0_compat; auto. pose proof (cnt_pos inputs cs cs_len c (Hall c Hc)). lra.
    - unfold prior, Rdiv. rewrite (sumR_ext k _ (fun c => / INR (nrows inputs) * cnt inputs cs c)) by (intros; lra).
      rewrite sumR_scal, (cnt_total inputs cs k cs_lt). field. lra.
  Qed.
  Lemma prior_nth c : (c < k)%nat -> nth c (map (prior inputs cs) (seq 0 k)) 0 = prior inputs cs c.
  Proof. intros Hc. now apply nth_map_seq. Qed.
  Lemma priors_ext q q' : (forall c, (c < k)%nat -> q c = q' c) -> sumR k (fun c => cnt inputs cs c * ln (q c)) = sumR k (fun c => cnt inputs cs c * ln (q' c)).
  Proof. intros H. apply sumR_ext. intros c Hc. now rewrite H. Qed.

  Lemma bern_trained (m : NaiveBayes R (Smooth R)) : (forall i j, (i < nrows inputs)%nat -> (j < mcols inputs)%nat -> 0 <= entry inputs i j <= 1) ->
    exists m' pr p, nb_train Bernoulli m inputs targets = (m', Ok tt) /\ nb_class_prior m' = Some pr /\ nb_distr m' = Some p /\
      let q0 := fun c => nth c pr 0 in let p0 := fun c j => exp (entry (s_log_probs p) c j) in
      class_probs k q0 /\ bern_probs inputs k p0 /\
      forall q p', class_probs k q -> bern_probs inputs k p' ->
        bern_fit inputs cs k q p' <= bern_fit inputs cs k q0 p0 /\
        (bern_fit inputs cs k q p' = bern_fit inputs cs k q0 p0 ->
         (forall c, (c < k)%nat -> q c = q0 c) /\ forall c j, (c < k)%nat -> (j < mcols inputs)%nat -> p' c j = p0 c j).
  Proof.
    intros Hx. destruct (bernoulli_fit inputs targets cs Wt Ht HL m Hx) as (m' & p & T & _ & Hpr & Hd & Hp & _).
    exists m', (map (prior inputs cs) (seq 0 k)), p. split; auto. split; auto. split; auto. cbv zeta.
    set (q0 := fun c => nth c (map (prior inputs cs) (seq 0 k)) 0). set (p0 := fun c j => exp (entry (s_log_probs p) c j)).
    assert (Eq : forall c, (c < k)%nat -> q0 c = prior inputs cs c) by exact prior_nth.
    assert (Ep : forall c j, (c < k)%nat -> (j < mcols inputs)%nat -> p0 c j = bern_p inputs cs c j) by (intros c j Hc Hj; apply Hp; auto).
    split; [|split].
    - destruct prior_probs as [P1 P2]. split; [intros c Hc; rewrite Eq by auto; auto|]. rewrite <- P2. apply sumR_ext. exact Eq.
    - intros c j Hc Hj. rewrite Ep by auto. apply Hp; auto.
    - intros q p' Hq Hp'. destruct (bern_best inputs cs k cs_lt q p' rows_pos Hx Hq Hp') as [B1 B2].
      assert (E : bern_fit inputs cs k q0 p0 = bern_fit inputs cs k (prior inputs cs) (bern_p inputs cs)).
      { rewrite !(bern_fit_eq inputs cs k cs_lt). f_equal; [now apply priors_ext|]. apply sumR_ext. intros c Hc. apply sumR_ext. intros j Hj. now rewrite Ep. }
      rewrite E. split; auto. intros E'. destruct (B2 E') as [B3 B4]. split; [intros c Hc; rewrite Eq by auto; auto|]. intros c j Hc Hj. rewrite Ep by auto. auto.
  Qed.

  Lemma mult_trained (m : NaiveBayes R (Smooth R)) : (0 < mcols inputs)%nat -> (forall i j, (i < nrows inputs)%nat -> (j < mcols inputs)%nat -> 0 <= entry inputs i j) ->
    exists m' pr p, nb_train Multinomial m inputs targets = (m', Ok tt) /\ nb_class_prior m' = Some pr /\ nb_distr m' = Some p /\
      let q0 := fun c => nth c pr 0 in let p0 := fun c j => exp (entry (s_log_probs p) c j) in
      class_probs k q0 /\ mult_probs inputs k p0 /\
      forall q p', class_probs k q -> mult_probs inputs k p' ->
        mult_fit inputs cs k q p' <= mult_fit inputs cs k q0 p0 /\
        (mult_fit inputs cs k q p' = mult_fit inputs cs k q0 p0 ->
         (forall c, (c < k)%nat -> q c = q0 c) /\ forall c j, (c < k)%nat -> (j < mcols inputs)%nat -> p' c j = p0 c j).
  Proof.
    intros Hd Hx. destruct (multinomial_fit inputs targets cs Wt Ht HL m Hx) as (m' & p & T & _ & Hpr & Hdd & Hp & _).
    exists m', (map (prior inputs cs) (seq 0 k)), p. split; auto. split; auto. split; auto. cbv zeta.
    set (q0 := fun c => nth c (map (prior inputs cs) (seq 0 k)) 0). set (p0 := fun c j => exp (entry (s_log_probs p) c j)).
    assert (Eq : forall c, (c < k)%nat -> q0 c = prior inputs cs c) by exact prior_nth.
    assert (Ep : forall c j, (c < k)%nat -> (j < mcols inputs)%nat -> p0 c j = mult_p inputs cs c j) by (intros c j Hc Hj; apply (Hp c); auto).
    split; [|split].
    - destruct prior_probs as [P1 P2]. split; [intros c Hc; rewrite Eq by auto; auto|]. rewrite <- P2. apply sumR_ext. exact Eq.
    - split.
      + intros c j Hc Hj. rewrite Ep by auto. apply (Hp c); auto.
      + intros c Hc. rewrite (sumR_ext _ _ (mult_p inputs cs c)) by (intros j Hj; apply Ep; auto). apply (Hp c); auto.
    - intros q p' Hq Hp'. destruct (mult_best inputs cs k cs_lt q p' rows_pos Hd Hx Hq Hp') as [B1 B2].
      assert (E : mult_fit inputs cs k q0 p0 = mult_fit inputs cs k (prior inputs cs) (mult_p inputs cs)).
      { rewrite !(mult_fit_eq inputs cs k cs_lt). f_equal; [now apply priors_ext|]. apply sumR_ext. intros c Hc. apply sumR_ext. intros j Hj. now rewrite Ep. }
      rewrite E. split; auto. intros E'. destruct (B2 E') as [B3 B4]. split; [intros c Hc; rewrite Eq by auto; auto|]. intros c j Hc Hj. rewrite Ep by auto. auto.
  Qed.

  Lemma lik_ext q q' mu mu' v v' : (forall c, (c < k)%nat -> q c = q' c) -> (forall c j, (c < k)%nat -> (j < mcols inputs)%nat -> mu c j = mu' c j) ->
    (forall c j, (c < k)%nat -> (j < mcols inputs)%nat -> v c j = v' c j) -> gauss_lik inputs cs q mu v = gauss_lik inputs cs q' mu' v'.
  Proof.
    intros Hq Hm Hv. unfold gauss_lik. apply sumR_ext. intros i Hi. pose proof (cs_lt i Hi) as Hc. rewrite Hq by auto. f_equal.
    apply sumR_ext. intros j Hj. now rewrite Hm, Hv.
  Qed.
  Lemma gauss_trained (m : NaiveBayes R (Gauss R)) : (0 < mcols inputs)%nat -> (forall c, (c < k)%nat -> (2 <= count_occ Nat.eq_dec cs c)%nat) ->
    (forall c j, (c < k)%nat -> (j < mcols inputs)%nat -> 0 < cls_var inputs cs c j) ->
    exists m' pr p, nb_train Gaussian m inputs targets = (m', Ok tt) /\ nb_class_prior m' = Some pr /\ nb_distr m' = Some p /\
      let q0 := fun c => nth c pr 0 in let mu0 := fun c j => entry (g_theta p) c j in let v0 := fun c j => entry (g_sigma p) c j in
      class_probs k q0 /\ variances inputs k v0 /\
      (forall q mu v, class_probs k q -> variances inputs k v ->
        gauss_fit_free inputs cs k q mu v <= gauss_fit_free inputs cs k q0 mu0 v0 /\
        (gauss_fit_free inputs cs k q mu v = gauss_fit_free inputs cs k q0 mu0 v0 ->
         (forall c, (c < k)%nat -> q c = q0 c) /\ forall c j, (c < k)%nat -> (j < mcols inputs)%nat -> mu c j = mu0 c j /\ v c j = v0 c j)) /\
      exists v, variances inputs k v /\ gauss_lik inputs cs q0 mu0 v0 < gauss_lik inputs cs q0 mu0 v.
  Proof.
    intros Hd H2 Hv. assert (Hin : forall c, In c cs -> (2 <= count_occ Nat.eq_dec cs c)%nat).
    { intros c Hc. apply H2. destruct (In_nth cs c 0%nat Hc) as (i & Hi & <-). rewrite cs_len in Hi. now apply cs_lt. }
    destruct (gauss_fit inputs targets cs Wt Ht HL m Hin) as (m' & p & T & _ & Hpr & Hdd & Hp & _).
    exists m', (map (prior inputs cs) (seq 0 k)), p. split; auto. split; auto. split; auto. cbv zeta.
    set (q0 := fun c => nth c (map (prior inputs cs) (seq 0 k)) 0). set (mu0 := fun c j => entry (g_theta p) c j). set (v0 := fun c j => entry (g_sigma p) c j).
    assert (Eq : forall c, (c < k)%nat -> q0 c = prior inputs cs c) by exact prior_nth.
    assert (Em : forall c j, (c < k)%nat -> (j < mcols inputs)%nat -> mu0 c j = cls_mean inputs cs c j) by (intros c j Hc Hj; apply (Hp c); auto).
    assert (Ev : forall c j, (c < k)%nat -> (j < mcols inputs)%nat -> v0 c j = cls_var inputs cs c j) by (intros c j Hc Hj; apply (Hp c); auto).
    assert (Hc2 : forall c, (c < k)%nat -> 2 <= cnt inputs cs c).
    { intros c Hc. rewrite <- (cnt_rows inputs cs cs_len), class_rows_count. apply (le_INR 2). auto. }
    assert (V0 : variances inputs k v0) by (intros c j Hc Hj; rewrite Ev by auto; auto).
    assert (Edev : forall c j, (c < k)%nat -> (j < mcols inputs)%nat -> dev inputs cs mu0 c j = dev inputs cs (cls_mean inputs cs) c j).
    { intros c j Hc Hj. unfold dev. now rewrite Em. }
    split; [|split; [exact V0|split]].
    - destruct prior_probs as [P1 P2]. split; [intros c Hc; rewrite Eq by auto; auto|]. rewrite <- P2. apply sumR_ext. exact Eq.
    - intros q mu v Hq Hvv. destruct (gauss_best inputs cs k cs_lt Hc2 Hv q mu v rows_pos Hq Hvv) as [B1 B2].
      assert (E : gauss_fit_free inputs cs k q0 mu0 v0 = gauss_fit_free inputs cs k (prior inputs cs) (cls_mean inputs cs) (cls_var inputs cs)).
      { rewrite !(gauss_free_eq inputs cs k cs_lt) by auto. f_equal; [now apply priors_ext|]. apply sumR_ext. intros c Hc. apply sumR_ext. intros j Hj. now rewrite Ev, Edev. }
      rewrite E. split; auto. intros E'. destruct (B2 E') as [B3 B4]. split; [intros c Hc; rewrite Eq by auto; auto|]. intros c j Hc Hj. rewrite Em, Ev by auto. auto.
    - assert (Vs : variances inputs k (fun c j => cls_var inputs cs c j * (1 - 1 / cnt inputs cs c))).
      { intros c j Hc Hj. apply Rmult_lt_0_compat; auto. specialize (Hc2 c Hc).
        replace (1 - 1 / cnt inputs cs c) with ((cnt inputs cs c - 1) / cnt inputs cs c) by (field; lra). apply Rdiv_lt_0_compat; lra. }
      exists (fun c j => cls_var inputs cs c j * (1 - 1 / cnt inputs cs c)). split; [exact Vs|].
      pose proof (gauss_not_ml inputs cs k cs_lt Hc2 Hv Hk Hd) as L.
      rewrite (lik_ext q0 (prior inputs cs) mu0 (cls_mean inputs cs) v0 (cls_var inputs cs)) by auto.
      rewrite (lik_ext q0 (prior inputs cs) mu0 (cls_mean inputs cs) _ (fun c j => cls_var inputs cs c j * (1 - 1 / cnt inputs cs c))) by auto. exact L.
  Qed.
End Tie.

Lemma nbfit_ex : mwf ex_targets /\ nrows ex_targets = nrows ex_inputs /\ labelled ex_targets ex_cs /\ (forall c, (c < mcols ex_targets)%nat -> In c ex_cs) /\
  (0 < mcols ex_targets)%nat /\ (0 < mcols ex_inputs)%nat /\ (forall c, (c < mcols ex_targets)%nat -> (2 <= count_occ Nat.eq_dec ex_cs c)%nat) /\
  (forall c j, (c < mcols ex_targets)%nat -> (j < mcols ex_inputs)%nat -> 0 < cls_var ex_inputs ex_cs c j) /\
  (forall i j, (i < nrows ex_inputs)%nat -> (j < mcols ex_inputs)%nat -> 0 <= entry ex_inputs i j <= 1) /\
  class_probs 2 (fun _ => 1 / 2) /\ bern_probs ex_inputs 2 (fun _ _ => 1 / 2) /\ mult_probs ex_inputs 2 (fun _ _ => 1) /\ variances ex_inputs 2 (fun _ _ => 1).
Proof.
  split; [repeat constructor|]. split; [reflexivity|]. split; [exact ex_labelled|].
  split; [intros c Hc; cbn in Hc; cbn; lia|]. split; [cbn; lia|]. split; [cbn; lia|].
  split; [intros c Hc; cbn in Hc; destruct c as [|[|c]]; cbn; lia|].
  split; [intros c j Hc Hj; cbn in Hc, Hj; replace j with 0%nat by lia; rewrite ex_var by lia; lra|].
  split; [exact ex_range|]. split; [split; [intros; lra|cbn; lra]|]. split; [intros c j _ _; lra|]. split; [split; [intros; lra|intros; cbn; lra]|]. intros c j _ _; lra.
Qed.
