(** * Naive Bayes over the reals: the estimates and the log-likelihoods *)
From Coq Require Import List Arith Lia Bool Reals Lra.
From Verif Require Import Base BaseLemmas Num NumFn Linalg LinalgR Spec_Calc CalcR Model_KMeans Proof_KMeans Model_NaiveBayes Spec_NaiveBayes Proof_NaiveBayes.
Import ListNotations.
Local Open Scope R_scope.

Lemma class_rows_count cs c : length (class_rows cs c) = count_occ Nat.eq_dec cs c.
Proof.
  apply INR_eq. rewrite (class_count cs c (length cs) eq_refl). induction cs as [|d cs IH] using rev_ind; auto.
  rewrite app_length, Nat.add_1_r. cbn [sumR]. rewrite count_occ_app, plus_INR, <- IH. f_equal.
  - apply sumR_ext. intros i Hi. now rewrite app_nth1.
  - rewrite app_nth2, Nat.sub_diag by lia. cbn [nth count_occ]. destruct (Nat.eqb_spec d c), (Nat.eq_dec d c); auto; try contradiction.
Qed.

Section Est.
  Context (inputs : matrix R) (cs : list nat).
  Hypothesis Lc : length cs = nrows inputs.
  Hypothesis Wi : mwf inputs.

  Lemma cnt_rows c : INR (length (class_rows cs c)) = cnt inputs cs c.
  Proof. unfold cnt. now apply class_count. Qed.
  Lemma cnt_pos c : In c cs -> 1 <= cnt inputs cs c.
  Proof. intros H. rewrite <- cnt_rows. apply (le_INR 1). now apply class_rows_nonempty. Qed.
  Lemma rows_sum f c : rsum (map f (class_rows cs c)) = sumR (nrows inputs) (fun i => if (nth i cs 0%nat =? c)%nat then f i else 0).
  Proof.
    unfold class_rows. rewrite rsum_map_filter, rsum_seq, Lc. apply sumR_ext. intros i Hi. now rewrite (nth_indep cs (S c) 0%nat) by lia.
  Qed.
  Lemma sel_col ids j : col (sel inputs ids) j = map (fun i => entry inputs i j) ids.
  Proof. unfold col, sel. cbn [mrows]. rewrite map_map. reflexivity. Qed.
  Lemma sel_nrows ids : nrows (sel inputs ids) = length ids.
  Proof. unfold nrows, sel. cbn [mrows]. apply map_length. Qed.
  Lemma mean_entry c j : (j < mcols inputs)%nat -> nth j (col_mean (sel inputs (class_rows cs c))) 0 = cls_mean inputs cs c j.
  Proof.
    intros Hj. unfold col_mean. cbn [mcols sel]. rewrite nth_map_seq by auto. rewrite sel_col, sel_nrows, vsum_R.
    cbn [ndiv nofnat NumR]. rewrite cnt_rows, rows_sum. reflexivity.
  Qed.
  Lemma var_entry c j : (j < mcols inputs)%nat -> In c cs -> nth j (col_var (sel inputs (class_rows cs c))) 0 = cls_var inputs cs c j.
  Proof.
    intros Hj IN. unfold col_var. cbn [mcols sel]. rewrite nth_map_seq by auto. rewrite sel_col, sel_nrows, !vsum_R.
    cbn [ndiv nofnat nmul nsub NumR]. rewrite minus_INR by (now apply class_rows_nonempty). rewrite cnt_rows, map_map, !rows_sum. unfold cls_var.
    change (INR 1) with 1. f_equal. apply sumR_ext. intros i Hi. destruct (nth i cs 0%nat =? c)%nat; auto. unfold cls_mean, csum.
    match goal with |- ?a = _ => ring_simplify a end. symmetry. match goal with |- ?a = _ => ring_simplify a end. reflexivity.
  Qed.
  Lemma sums_entry c j : (j < mcols inputs)%nat -> nth j (col_sums (sel inputs (class_rows cs c))) 0 = csum inputs cs c j.
  Proof.
    intros Hj. unfold col_sums. cbn [mcols sel]. rewrite nth_map_seq by auto. now rewrite sel_col, vsum_R, rows_sum.
  Qed.
  Lemma trained_in f w c : In c cs -> trained_row inputs cs f w c = f (sel inputs (class_rows cs c)).
  Proof. intros H. unfold trained_row. pose proof (class_rows_nonempty cs c H). destruct (class_rows cs c); [cbn in *; lia|reflexivity]. Qed.

  (** ** Priors *)
  Lemma priors_map k : priors_of inputs k cs = map (prior inputs cs) (seq 0 k).
  Proof. unfold priors_of. apply map_ext. intros c. cbn [ndiv nofnat NumR]. now rewrite cnt_rows. Qed.
  Lemma prior_ge0 c : (0 < nrows inputs)%nat -> 0 <= prior inputs cs c.
  Proof.
    intros H. apply Rmult_le_pos; [|left; apply Rinv_0_lt_compat, lt_0_INR; lia]. rewrite <- cnt_rows. apply pos_INR.
  Qed.
  Lemma prior_pos c : In c cs -> 0 < prior inputs cs c.
  Proof.
    intros H. pose proof (cnt_pos c H). destruct cs; [easy|]. cbn in Lc. apply Rdiv_lt_0_compat; [lra|]. apply lt_0_INR. lia.
  Qed.
  Lemma prior_sum k : (0 < nrows inputs)%nat -> Forall (fun c => (c < k)%nat) cs -> sumR k (prior inputs cs) = 1.
  Proof.
    intros H B. unfold prior, cnt. rewrite (sumR_ext k _ (fun c => / INR (nrows inputs) * sumR (nrows inputs) (fun i => if (nth i cs 0%nat =? c)%nat then 1 else 0)))
      by (intros; unfold Rdiv; ring).
    rewrite sumR_scal.
    assert (E : sumR k (fun c => sumR (nrows inputs) (fun i => if (nth i cs 0%nat =? c)%nat then 1 else 0)) = INR (nrows inputs)).
    { rewrite (sumR_exch k (nrows inputs) (fun c i => if (nth i cs 0%nat =? c)%nat then 1 else 0)).
      rewrite (sumR_ext _ _ (fun _ => 1)).
      - rewrite sumR_const. lra.
      - intros i Hi. rewrite (sumR_single _ _ (nth i cs 0%nat)).
        + now rewrite Nat.eqb_refl.
        + rewrite Forall_forall in B. apply B, nth_In. lia.
        + intros c Hc Hn. destruct (Nat.eqb_spec (nth i cs 0%nat) c); auto. congruence. }
    rewrite E. apply Rinv_l. apply not_0_INR. lia.
  Qed.

  (** ** Scores *)
  Lemma gauss_score_ll c x th si : In c cs -> length x = mcols inputs -> length th = mcols inputs -> length si = mcols inputs ->
    (forall j, (j < mcols inputs)%nat -> nth j th 0 = cls_mean inputs cs c j /\ nth j si 0 = cls_var inputs cs c j /\ 0 < cls_var inputs cs c j) ->
    gauss_score (prior inputs cs c) th si x = gauss_ll inputs cs c x.
  Proof.
    intros IN Lx Lt Ls H. unfold gauss_score, gauss_ll.
    rewrite !vsum_R. cbn [nadd nmul nopp nln npi NumR NumFnR]. unfold half, two. cbn [ndiv nonev nofnat NumR].
    rewrite (rsum_map2_nth _ _ _ (mcols inputs)); auto.
    2:{ unfold vsub. rewrite map_length, map2_length. lia. }
    rewrite (rsum_nth (map _ si)), map_length, Ls.
    rewrite (sumR_ext (mcols inputs) (fun j => ln (normal_pdf _ _ _))
      (fun j => (-1/2) * (nth j (map (fun d => d * d) (vsub x th)) 0 / nth j si 0) + (-1/2) * nth j (map (fun s => ln (s * INR 2 * PI)) si) 0)).
    - rewrite sumR_plus, !sumR_scal. change (INR 2) with (1+1). unfold Rdiv. field_simplify. lra.
    - intros j Hj. destruct (H j Hj) as (E1 & E2 & E3).
      rewrite (nth_map (fun d => d * d) _ _ _ 0) by (unfold vsub; rewrite map2_length; lia).
      unfold vsub. rewrite (map2_nth _ _ _ _ 0 0) by lia. rewrite (nth_map (fun s => ln (s * INR 2 * PI)) _ _ _ 0) by lia.
      rewrite E1, E2. cbn [nsub NumR]. set (mu := cls_mean inputs cs c j). set (v := cls_var inputs cs c j) in *. set (t := nth j x 0).
      assert (P : 0 < 2 * PI * v) by (pose proof PI_RGT_0; apply Rmult_lt_0_compat; lra).
      unfold normal_pdf, Rdiv. rewrite ln_mult by (apply exp_pos || (apply Rinv_0_lt_compat; now apply sqrt_lt_R0)).
      rewrite ln_exp, ln_Rinv by (now apply sqrt_lt_R0).
      replace (ln (sqrt (2 * PI * v))) with (/ 2 * ln (2 * PI * v)).
      + replace (v * INR 2 * PI) with (2 * PI * v) by (cbn; ring). field. lra.
      + rewrite <- (sqrt_sqrt (2 * PI * v)) at 1 by lra. rewrite ln_mult by (now apply sqrt_lt_R0). field.
  Qed.

  Lemma csum_ge0 c j : (forall i, (i < nrows inputs)%nat -> 0 <= entry inputs i j) -> 0 <= csum inputs cs c j.
  Proof. intros H. apply sumR_ge0. intros i Hi. destruct (nth i cs 0%nat =? c)%nat; auto. lra. Qed.
  Lemma csum_le c j : (forall i, (i < nrows inputs)%nat -> entry inputs i j <= 1) -> csum inputs cs c j <= cnt inputs cs c.
  Proof. intros H. apply sumR_le. intros i Hi. destruct (nth i cs 0%nat =? c)%nat; auto. lra. Qed.
  Lemma bern_p_range c j : In c cs -> (forall i, (i < nrows inputs)%nat -> 0 <= entry inputs i j <= 1) -> 0 < bern_p inputs cs c j < 1.
  Proof.
    intros IN H. pose proof (cnt_pos c IN). pose proof (csum_ge0 c j ltac:(firstorder)). pose proof (csum_le c j ltac:(firstorder)). unfold bern_p. split.
    - apply Rdiv_lt_0_compat; lra.
    - apply (Rmult_lt_reg_r (cnt inputs cs c + 2)); [lra|]. unfold Rdiv. rewrite Rmult_assoc, Rinv_l by lra. lra.
  Qed.
  Definition bern_row (m : matrix R) : list R :=
    map (fun f => nsub (nln f) (nln (nadd (nofnat (nrows m)) (nmul two nonev)))) (map (fun s => nadd s nonev) (col_sums m)).
  Definition mult_row (m : matrix R) : list R :=
    map (fun f => nsub (nln f) (nln (vsum (map (fun s => nadd s nonev) (col_sums m))))) (map (fun s => nadd s nonev) (col_sums m)).
  Lemma col_sums_length m : length (@col_sums R NumR m) = mcols m.
  Proof. unfold col_sums. now rewrite map_length, seq_length. Qed.
  Lemma bern_row_entry c j : In c cs -> (j < mcols inputs)%nat -> (forall i, (i < nrows inputs)%nat -> 0 <= entry inputs i j) ->
    nth j (bern_row (sel inputs (class_rows cs c))) 0 = ln (bern_p inputs cs c j).
  Proof.
    intros IN Hj H. unfold bern_row. rewrite map_map.
    rewrite (nth_map _ _ _ _ 0) by (rewrite col_sums_length; exact Hj).
    rewrite sums_entry, sel_nrows by auto. cbn [nsub nln nadd nmul nofnat nonev NumR NumFnR]. rewrite cnt_rows.
    pose proof (cnt_pos c IN). pose proof (csum_ge0 c j H). unfold bern_p, Rdiv. unfold two. cbn [nofnat NumR]. change (INR 2) with (1+1).
    rewrite ln_mult by (try lra; apply Rinv_0_lt_compat; lra). rewrite ln_Rinv by lra. replace (cnt inputs cs c + (1 + 1) * 1) with (cnt inputs cs c + 2) by ring. ring.
  Qed.
  Lemma mult_tot c : rsum (map (fun s => s + 1) (col_sums (sel inputs (class_rows cs c)))) = sumR (mcols inputs) (fun j => csum inputs cs c j + 1).
  Proof.
    rewrite rsum_nth, map_length, col_sums_length. apply sumR_ext. intros j Hj. cbn [mcols sel] in Hj.
    rewrite (nth_indep _ 0 ((fun s => s + 1) 0)) by (now rewrite map_length, col_sums_length).
    rewrite (map_nth (fun s => s + 1)). now rewrite sums_entry.
  Qed.
  Lemma mult_tot_pos c : (0 < mcols inputs)%nat -> (forall i j, (i < nrows inputs)%nat -> (j < mcols inputs)%nat -> 0 <= entry inputs i j) ->
    0 < sumR (mcols inputs) (fun j => csum inputs cs c j + 1).
  Proof.
    intros W H. apply Rlt_le_trans with (INR (mcols inputs) * 1); [pose proof (lt_0_INR _ W); lra|]. rewrite <- sumR_const. apply sumR_le.
    intros j Hj. pose proof (csum_ge0 c j ltac:(auto)). lra.
  Qed.
  Lemma mult_row_entry c j : (j < mcols inputs)%nat -> (forall i j, (i < nrows inputs)%nat -> (j < mcols inputs)%nat -> 0 <= entry inputs i j) ->
    nth j (mult_row (sel inputs (class_rows cs c))) 0 = ln (mult_p inputs cs c j).
  Proof.
    intros Hj H. unfold mult_row. rewrite map_map.
    rewrite (nth_map _ _ _ _ 0) by (rewrite col_sums_length; exact Hj).
    rewrite sums_entry by auto. rewrite vsum_R. cbn [nsub nln nadd nmul nofnat nonev NumR NumFnR]. rewrite mult_tot.
    pose proof (mult_tot_pos c ltac:(lia) H). pose proof (csum_ge0 c j ltac:(auto)). unfold mult_p, Rdiv.
    rewrite ln_mult by (try lra; apply Rinv_0_lt_compat; lra). rewrite ln_Rinv by lra. ring.
  Qed.
  Lemma mult_p_sum c : (0 < mcols inputs)%nat -> (forall i j, (i < nrows inputs)%nat -> (j < mcols inputs)%nat -> 0 <= entry inputs i j) ->
    sumR (mcols inputs) (mult_p inputs cs c) = 1.
  Proof.
    intros W H. pose proof (mult_tot_pos c W H). unfold mult_p.
    rewrite (sumR_ext _ _ (fun j => / sumR (mcols inputs) (fun j' => csum inputs cs c j' + 1) * (csum inputs cs c j + 1))) by (intros; unfold Rdiv; ring).
    rewrite sumR_scal. apply Rinv_l. lra.
  Qed.
  Lemma bernoulli_score_ll c x lp : In c cs -> length x = mcols inputs -> length lp = mcols inputs ->
    (forall j, (j < mcols inputs)%nat -> nth j lp 0 = ln (bern_p inputs cs c j) /\ 0 < bern_p inputs cs c j) ->
    bernoulli_score (prior inputs cs c) lp x = bern_ll inputs cs c x.
  Proof.
    intros IN Lx Ll H. unfold bernoulli_score, bern_ll. set (neg := map _ lp).
    assert (Ln : length neg = mcols inputs) by (unfold neg; now rewrite map_length).
    rewrite dot_rsum, (rsum_map2_nth _ _ _ (mcols inputs)); auto; [|unfold vsub; rewrite map2_length; lia].
    rewrite vsum_R, (rsum_nth neg), Ln. cbn [nadd nln NumR NumFnR].
    rewrite (sumR_ext (mcols inputs) (fun i => nth i x 0 * _) (fun j => nth j x 0 * ln (bern_p inputs cs c j) + (1 - nth j x 0) * ln (1 - bern_p inputs cs c j) + (-1) * nth j neg 0)).
    - rewrite sumR_plus, sumR_scal. ring.
    - intros j Hj. destruct (H j Hj) as [E P]. unfold vsub. rewrite (map2_nth _ _ _ _ 0 0) by lia. cbn [nsub NumR].
      assert (En : nth j neg 0 = ln (1 - bern_p inputs cs c j)).
      { unfold neg. rewrite (nth_map _ _ _ _ 0) by lia.
        cbn [nsub nln nexp nonev NumR NumFnR]. rewrite E, exp_ln; auto. }
      rewrite En, E. ring.
  Qed.
  Lemma multinomial_score_ll c x lp : length x = mcols inputs -> length lp = mcols inputs ->
    (forall j, (j < mcols inputs)%nat -> nth j lp 0 = ln (mult_p inputs cs c j)) ->
    multinomial_score (prior inputs cs c) lp x = mult_ll inputs cs c x.
  Proof.
    intros Lx Ll H. unfold multinomial_score, mult_ll. rewrite dot_rsum, (rsum_map2_nth _ _ _ (mcols inputs)); auto.
    cbn [nadd nln NumR NumFnR]. rewrite Rplus_comm. f_equal. apply sumR_ext. intros j Hj. now rewrite H.
  Qed.
End Est.

Section Fit.
  Context (inputs targets : matrix R) (cs : list nat).
  Hypothesis Wi : mwf inputs.
  Hypothesis Wt : mwf targets.
  Hypothesis L : nrows targets = nrows inputs.
  Hypothesis H : labelled targets cs.

  Lemma fit_Lc : length cs = nrows inputs.
  Proof. rewrite <- L. now apply labels_lt. Qed.
  Lemma fit_lt c : In c cs -> (c < mcols targets)%nat.
  Proof. pose proof (proj1 (labels_lt _ _ Wt H)) as Q. rewrite Forall_forall in Q. apply Q. Qed.
  Lemma nb_priors : (0 < nrows inputs)%nat ->
    (forall c, 0 <= prior inputs cs c) /\ sumR (mcols targets) (prior inputs cs) = 1.
  Proof.
    intros P. split; [intros; apply prior_ge0; auto using fit_Lc|]. apply prior_sum; auto using fit_Lc. now apply (labels_lt _ _ Wt H).
  Qed.

  Theorem gauss_fit (m : NaiveBayes R (Gauss R)) : (forall c, In c cs -> (2 <= count_occ Nat.eq_dec cs c)%nat) ->
    exists m' p, nb_train Gaussian m inputs targets = (m', Ok tt) /\ nb_cluster_count m' = Some (mcols targets) /\
      nb_class_prior m' = Some (map (prior inputs cs) (seq 0 (mcols targets))) /\ nb_distr m' = Some p /\
      (forall c j, In c cs -> (j < mcols inputs)%nat -> entry (g_theta p) c j = cls_mean inputs cs c j /\ entry (g_sigma p) c j = cls_var inputs cs c j) /\
      forall X, mwf X -> mcols X = mcols inputs -> exists lp, get_log_probs Gaussian m' X = Ok lp /\ mwf lp /\ nrows lp = nrows X /\ mcols lp = mcols targets /\
        forall i c, (i < nrows X)%nat -> In c cs -> (forall j, (j < mcols inputs)%nat -> 0 < cls_var inputs cs c j) ->
          entry lp i c = gauss_ll inputs cs c (nth i (mrows X) []).
  Proof.
    intros H2. pose proof fit_Lc as Lc.
    destruct (gauss_nb_train m inputs targets cs) as (m' & p & E1 & E2 & E3 & E4 & E5 & E6); auto.
    { intros. rewrite class_rows_count. auto. }
    exists m', p. rewrite priors_map in E3 by auto. repeat (split; [assumption|]).
    set (k := mcols targets) in *.
    assert (T : forall c, (c < k)%nat -> nth c (mrows (g_theta p)) [] = trained_row inputs cs col_mean (mcols inputs) c).
    { intros c Hc. rewrite E5. cbn [mrows]. now apply nth_map_seq. }
    assert (S' : forall c, (c < k)%nat -> nth c (mrows (g_sigma p)) [] = trained_row inputs cs col_var (mcols inputs) c).
    { intros c Hc. rewrite E6. cbn [mrows]. now apply nth_map_seq. }
    split.
    - intros c j IN Hj. pose proof (fit_lt c IN). unfold entry. rewrite T, S', !trained_in by auto. split; [now apply mean_entry|now apply var_entry].
    - intros X WX CX. unfold get_log_probs. rewrite E3, E4. cbn [d_joint Gaussian]. unfold gauss_joint. rewrite map_length, seq_length.
      assert (Q1 : nrows (g_theta p) = k) by (rewrite E5; unfold nrows; cbn [mrows]; now rewrite map_length, seq_length).
      assert (Q2 : nrows (g_sigma p) = k) by (rewrite E6; unfold nrows; cbn [mrows]; now rewrite map_length, seq_length).
      assert (Q3 : mcols (g_theta p) = mcols inputs) by (now rewrite E5).
      rewrite Q1, Q2, Q3, CX, Nat.leb_refl, Nat.eqb_refl, orb_true_r. cbn [andb rassert]. eexists. split; [reflexivity|]. split; [|split; [|split]].
      + unfold mwf. cbn [mrows mcols]. apply Forall_map, Forall_forall. intros x _. now rewrite map_length, seq_length.
      + unfold nrows. cbn [mrows]. now rewrite map_length.
      + reflexivity.
      + intros i c Hi IN V. pose proof (fit_lt c IN) as Hc. unfold entry at 1. cbn [mrows].
        rewrite (nth_map _ _ _ _ []) by assumption.
        rewrite nth_map_seq by auto. rewrite nth_map_seq by auto. rewrite T, S', !trained_in by auto. apply gauss_score_ll; auto.
        * rewrite <- CX. now apply mwf_row.
        * unfold col_mean. now rewrite map_length, seq_length.
        * unfold col_var. now rewrite map_length, seq_length.
        * intros j Hj. rewrite mean_entry, var_entry; auto.
  Qed.

  Lemma smooth_fit upd0 score (f : matrix R -> list R) (m : NaiveBayes R (Smooth R)) :
    (forall p m c, upd0 p m c = smooth_set p c (f m)) ->
    let D := {| d_new := fun a b => {| s_log_probs := mzeros a b |}; d_update := upd0; d_joint := smooth_joint score |} in
    exists m' p, nb_train D m inputs targets = (m', Ok tt) /\ nb_cluster_count m' = Some (mcols targets) /\
      nb_class_prior m' = Some (map (prior inputs cs) (seq 0 (mcols targets))) /\ nb_distr m' = Some p /\
      (forall c, In c cs -> nth c (mrows (s_log_probs p)) [] = f (sel inputs (class_rows cs c))) /\
      forall X, mwf X -> mcols X = mcols inputs -> exists lp, get_log_probs D m' X = Ok lp /\ mwf lp /\ nrows lp = nrows X /\ mcols lp = mcols targets /\
        forall i c, (i < nrows X)%nat -> In c cs -> entry lp i c = score (prior inputs cs c) (f (sel inputs (class_rows cs c))) (nth i (mrows X) []).
  Proof.
    intros HU D. pose proof fit_Lc as Lc.
    destruct (smooth_nb_train upd0 (smooth_joint score) f m inputs targets cs) as (m' & p & E1 & E2 & E3 & E4 & E5); auto.
    exists m', p. rewrite priors_map in E3 by auto. repeat (split; [assumption|]).
    set (k := mcols targets) in *.
    assert (T : forall c, (c < k)%nat -> nth c (mrows (s_log_probs p)) [] = trained_row inputs cs f (mcols inputs) c).
    { intros c Hc. rewrite E5. cbn [mrows]. now apply nth_map_seq. }
    assert (T' : forall c, In c cs -> nth c (mrows (s_log_probs p)) [] = f (sel inputs (class_rows cs c))).
    { intros c IN. rewrite T, trained_in; auto. now apply fit_lt. }
    split; [exact T'|].
    intros X WX CX. unfold get_log_probs. rewrite E3, E4. cbn [d_joint D]. unfold smooth_joint. rewrite map_length, seq_length.
    assert (Q1 : nrows (s_log_probs p) = k) by (rewrite E5; unfold nrows; cbn [mrows]; now rewrite map_length, seq_length).
    assert (Q3 : mcols (s_log_probs p) = mcols inputs) by (now rewrite E5).
    rewrite Q1, Q3, CX, !Nat.eqb_refl. cbn [andb rassert].
    eexists. split; [reflexivity|]. split; [|split; [|split]].
    - unfold mwf. cbn [mrows mcols]. apply Forall_map, Forall_forall. intros x _. now rewrite map_length, seq_length.
    - unfold nrows. cbn [mrows]. now rewrite map_length.
    - reflexivity.
    - intros i c Hi IN. pose proof (fit_lt c IN) as Hc. unfold entry at 1. cbn [mrows].
      rewrite (nth_map _ _ _ _ []) by assumption.
      rewrite nth_map_seq by auto. rewrite nth_map_seq by auto. now rewrite T'.
  Qed.

  Theorem bernoulli_fit (m : NaiveBayes R (Smooth R)) : (forall i j, (i < nrows inputs)%nat -> (j < mcols inputs)%nat -> 0 <= entry inputs i j <= 1) ->
    exists m' p, nb_train Bernoulli m inputs targets = (m', Ok tt) /\ nb_cluster_count m' = Some (mcols targets) /\
      nb_class_prior m' = Some (map (prior inputs cs) (seq 0 (mcols targets))) /\ nb_distr m' = Some p /\
      (forall c j, In c cs -> (j < mcols inputs)%nat -> exp (entry (s_log_probs p) c j) = bern_p inputs cs c j /\ 0 < bern_p inputs cs c j < 1) /\
      forall X, mwf X -> mcols X = mcols inputs -> exists lp, get_log_probs Bernoulli m' X = Ok lp /\ mwf lp /\ nrows lp = nrows X /\ mcols lp = mcols targets /\
        forall i c, (i < nrows X)%nat -> In c cs -> entry lp i c = bern_ll inputs cs c (nth i (mrows X) []).
  Proof.
    intros HD. pose proof fit_Lc as Lc. destruct (smooth_fit bernoulli_update bernoulli_score bern_row m) as (m' & p & E1 & E2 & E3 & E4 & E5 & E6).
    { reflexivity. }
    exists m', p. repeat (split; [assumption|]). split.
    - intros c j IN Hj. assert (B : 0 < bern_p inputs cs c j < 1) by (apply bern_p_range; auto). split; auto.
      unfold entry. rewrite E5 by auto. rewrite bern_row_entry; auto; [now apply exp_ln|]. intros i Hi. now apply HD.
    - intros X WX CX. destruct (E6 X WX CX) as (lp & A1 & A2 & A3 & A4 & A5). exists lp. repeat (split; [assumption|]).
      intros i c Hi IN. rewrite A5 by auto. apply bernoulli_score_ll; auto.
      + rewrite <- CX. now apply mwf_row.
      + unfold bern_row. rewrite !map_length, col_sums_length. reflexivity.
      + intros j Hj. split; [apply bern_row_entry; auto; intros q Hq; now apply HD|]. apply bern_p_range; auto.
  Qed.
  Theorem multinomial_fit (m : NaiveBayes R (Smooth R)) : (forall i j, (i < nrows inputs)%nat -> (j < mcols inputs)%nat -> 0 <= entry inputs i j) ->
    exists m' p, nb_train Multinomial m inputs targets = (m', Ok tt) /\ nb_cluster_count m' = Some (mcols targets) /\
      nb_class_prior m' = Some (map (prior inputs cs) (seq 0 (mcols targets))) /\ nb_distr m' = Some p /\
      (forall c, In c cs -> (forall j, (j < mcols inputs)%nat -> exp (entry (s_log_probs p) c j) = mult_p inputs cs c j /\ 0 < mult_p inputs cs c j) /\
         ((0 < mcols inputs)%nat -> sumR (mcols inputs) (mult_p inputs cs c) = 1)) /\
      forall X, mwf X -> mcols X = mcols inputs -> exists lp, get_log_probs Multinomial m' X = Ok lp /\ mwf lp /\ nrows lp = nrows X /\ mcols lp = mcols targets /\
        forall i c, (i < nrows X)%nat -> In c cs -> entry lp i c = mult_ll inputs cs c (nth i (mrows X) []).
  Proof.
    intros HD. pose proof fit_Lc as Lc. destruct (smooth_fit multinomial_update multinomial_score mult_row m) as (m' & p & E1 & E2 & E3 & E4 & E5 & E6).
    { reflexivity. }
    exists m', p. repeat (split; [assumption|]). split.
    - intros c IN. split; [|intros; now apply mult_p_sum]. intros j Hj.
      assert (B : 0 < mult_p inputs cs c j).
      { apply Rdiv_lt_0_compat; [pose proof (csum_ge0 inputs cs c j ltac:(auto)); lra|]. apply mult_tot_pos; auto. lia. }
      split; auto. unfold entry. rewrite E5, mult_row_entry by auto. now apply exp_ln.
    - intros X WX CX. destruct (E6 X WX CX) as (lp & A1 & A2 & A3 & A4 & A5). exists lp. repeat (split; [assumption|]).
      intros i c Hi IN. rewrite A5 by auto. apply multinomial_score_ll; auto.
      + rewrite <- CX. now apply mwf_row.
      + unfold mult_row. rewrite !map_length, col_sums_length. reflexivity.
      + intros j Hj. now apply mult_row_entry.
  Qed.
End Fit.
