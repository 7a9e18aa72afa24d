(** The maximisation step and the training loop. *)
From Coq Require Import List Arith Lia Bool Reals Lra Permutation.
From Verif Require Import Base BaseLemmas Num NumFn Linalg LinalgR Spec_Calc CalcR Model_Rand Proof_Rand Proof_KMeans MatR
  Model_Optim Model_GP Model_NNet Proof_GP Proof_Toolkit Proof_NNet2 Proof_PCA Model_GMM Spec_GMM Proof_GMM Proof_GMM2.
Import ListNotations.
Local Open Scope R_scope.

Lemma fold_mzip d (G : nat -> matrix R) n : (forall i, square d (G i)) -> forall s Z, square d Z ->
  square d (fold_left (fun acc i => mzip nadd acc (G i)) (seq s n) Z) /\
  forall a b, (a < d)%nat -> (b < d)%nat ->
    entry (fold_left (fun acc i => mzip nadd acc (G i)) (seq s n) Z) a b = entry Z a b + sumR n (fun i => entry (G (s + i)%nat) a b).
Proof.
  intros HG. induction n as [|n IH]; intros s Z HZ; cbn [seq fold_left sumR].
  - split; [exact HZ|]. intros. ring.
  - destruct (IH (Datatypes.S s) (mzip nadd Z (G s))) as (H1 & H2); [apply mzip_square; auto|]. split; [exact H1|].
    intros a b Ha Hb. rewrite H2 by auto. rewrite (mzip_entry nadd Z (G s) a b d) by auto. cbn [nadd NumR].
    transitivity (entry Z a b + sumR (Datatypes.S n) (fun i => entry (G (s + i)%nat) a b)); [|reflexivity].
    rewrite Proof_NNet2.sumR_S_l. rewrite Nat.add_0_r.
    rewrite (sumR_ext n (fun i => entry (G (s + Datatypes.S i)%nat) a b) (fun i => entry (G (Datatypes.S s + i)%nat) a b)); [ring|].
    intros i _. f_equal. f_equal. lia.
Qed.
Lemma compute_cov_entry (self : GMM R) diff w d : length diff = d -> square d (compute_cov self diff w) /\
  forall a b, (a < d)%nat -> (b < d)%nat -> entry (compute_cov self diff w) a b =
    match gmm_cov_option self with
    | CovDiagonal => if (a =? b)%nat then nth a diff 0 * nth a diff 0 * w else 0
    | _ => nth a diff 0 * nth b diff 0 * w
    end.
Proof.
  intros Ld.
  assert (WD : mwf (Mat [diff] d)) by (constructor; [exact Ld|constructor]).
  assert (SQ : square d (mat_mul (transpose (Mat [diff] d)) (Mat [diff] d))).
  { split; [apply mat_mul_wf|]. split; [rewrite mat_mul_nrows, transpose_nrows; reflexivity|reflexivity]. }
  assert (OUT : square d (mmap (fun x => x * w) (mat_mul (transpose (Mat [diff] d)) (Mat [diff] d))) /\
     forall a b, (a < d)%nat -> (b < d)%nat -> entry (mmap (fun x => x * w) (mat_mul (transpose (Mat [diff] d)) (Mat [diff] d))) a b = nth a diff 0 * nth b diff 0 * w).
  { split; [apply mmap_square; exact SQ|]. intros a b Ha Hb. rewrite mmap_entry; [|apply SQ|rewrite (proj1 (proj2 SQ)); auto|exact Hb].
    rewrite mat_mul_entry; [|apply transpose_wf|reflexivity|rewrite transpose_nrows; exact Ha|exact Hb].
    change (mcols (transpose (Mat [diff] d))) with 1%nat. cbn [sumR]. rewrite transpose_entry by (cbn; lia). rewrite !row_entry. ring. }
  unfold compute_cov. rewrite Ld. destruct (gmm_cov_option self) as [|eps|]; [exact OUT|exact OUT|].
  assert (LV : length (velemul diff diff) = d) by (unfold velemul; rewrite map2_length, Ld; apply Nat.min_id).
  pose proof (from_diag_square (velemul diff diff)) as SD. rewrite LV in SD. split; [apply mmap_square; exact SD|].
  intros a b Ha Hb. rewrite mmap_entry; [|apply SD|rewrite (proj1 (proj2 SD)); auto|rewrite (proj2 (proj2 SD)); auto].
  rewrite from_diag_entry by lia. destruct (a =? b)%nat; [|change (0 * w = 0); ring]. unfold velemul. rewrite (map2_nth _ _ _ _ 0 0) by lia. reflexivity.
Qed.

Section MStep.
  Variables (self : GMM R) (X W : matrix R) (d : nat).
  Hypotheses (WX : mwf X) (EX : mcols X = d) (WW : mwf W) (RW : nrows W = nrows X) (CW : mcols W = gmm_comp_count self)
    (HW : forall i, (i < nrows X)%nat -> (forall j, (j < gmm_comp_count self)%nat -> 0 < entry W i j) /\ sumR (gmm_comp_count self) (entry W i) = 1)
    (HR : (0 < nrows X)%nat).
  Let n := nrows X.
  Let k := gmm_comp_count self.
  Let sums := map (fun j => vsum (col W j)) (seq 0 (mcols W)).
  Lemma sums_length : length sums = k.
  Proof. unfold sums. rewrite map_length, seq_length. exact CW. Qed.
  Lemma sums_nth j : (j < k)%nat -> nth j sums 0 = wsum n (entry W) j.
  Proof.
    intros Hj. unfold sums. rewrite nth_map_seq by (rewrite CW; exact Hj). rewrite vsum_R, rsum_nth, col_length, RW.
    apply sumR_ext. intros i Hi. apply col_nth. rewrite RW. exact Hi.
  Qed.
  Lemma wsum_pos j : (j < k)%nat -> 0 < wsum n (entry W) j.
  Proof.
    intros Hj. unfold wsum. apply Rlt_le_trans with (entry W 0 j); [apply HW; auto|].
    apply (sumR_ge_term n (fun i => entry W i j)); [|exact HR]. intros i Hi. left. apply HW; auto.
  Qed.
  Let U := update_params self X W.
  Lemma mstep_weights : length (gmm_mix_weights U) = k /\ forall j, (j < k)%nat -> nth j (gmm_mix_weights U) 0 = wsum n (entry W) j / INR n.
  Proof.
    unfold U, update_params. cbn [gmm_mix_weights]. fold sums. rewrite map_length. split; [apply sums_length|].
    intros j Hj. rewrite (nth_map _ _ _ _ 0) by (rewrite sums_length; exact Hj). rewrite sums_nth by auto. rewrite RW. reflexivity.
  Qed.
  Lemma mstep_distribution : positive_distribution k (gmm_mix_weights U).
  Proof.
    destruct mstep_weights as (L & H). split; [exact L|]. assert (HN : 0 < INR n) by (apply lt_0_INR; exact HR). split.
    - intros j Hj. rewrite H by auto. apply Rdiv_lt_0_compat; [apply wsum_pos; auto|exact HN].
    - rewrite (sumR_ext k _ (fun j => wsum n (entry W) j * / INR n)) by (intros; apply H; auto). rewrite sumR_scal_r.
      unfold wsum. rewrite <- sumR_exch. rewrite (sumR_ext n _ (fun _ => 1)) by (intros i Hi; apply HW; auto).
      rewrite sumR_const. field. lra.
  Qed.
  Let meansU := Mat (map2 (fun mean w => map (fun x => ndiv x w) mean) (mrows (mat_mul (transpose W) X)) sums) d.
  Lemma mstep_means_eq : gmm_means U = Some meansU.
  Proof. unfold U, update_params. cbn [gmm_means]. fold sums. rewrite EX. reflexivity. Qed.
  Lemma prod_rows : nrows (mat_mul (transpose W) X) = k.
  Proof. rewrite mat_mul_nrows, transpose_nrows. exact CW. Qed.
  Lemma mstep_means : mwf meansU /\ nrows meansU = k /\ mcols meansU = d /\
    forall j a, (j < k)%nat -> (a < d)%nat -> entry meansU j a = wmean n (entry W) (entry X) j a.
  Proof.
    pose proof prod_rows as PR. unfold nrows in PR. pose proof sums_length as SL.
    assert (PW := mat_mul_wf (transpose W) X).
    assert (RL : forall j, (j < k)%nat -> length (nth j (mrows (mat_mul (transpose W) X)) []) = d).
    { intros j Hj. rewrite (mwf_row _ j PW) by (unfold nrows; lia). exact EX. }
    assert (RJ : forall j, (j < k)%nat -> nth j (mrows meansU) [] = map (fun x => x / nth j sums 0) (nth j (mrows (mat_mul (transpose W) X)) [])).
    { intros j Hj. unfold meansU. cbn [mrows]. rewrite (map2_nth _ _ _ _ [] 0) by lia. reflexivity. }
    assert (NR : nrows meansU = k) by (unfold nrows, meansU; cbn [mrows]; rewrite map2_length; lia).
    split; [|split; [exact NR|split; [reflexivity|]]].
    - apply Forall_forall. intros r Hr. destruct (In_nth _ _ [] Hr) as (j & Hj & <-). fold (nrows meansU) in Hj. rewrite NR in Hj.
      rewrite RJ by auto. rewrite map_length. apply RL; auto.
    - intros j a Hj Ha. unfold entry at 1. rewrite RJ by auto. rewrite (nth_map _ _ _ _ 0) by (rewrite RL; auto).
      rewrite sums_nth by auto. unfold wmean. cbn [ndiv NumR]. f_equal.
      change (nth a (nth j (mrows (mat_mul (transpose W) X)) []) 0) with (entry (mat_mul (transpose W) X) j a).
      rewrite mat_mul_entry; [|apply transpose_wf|rewrite transpose_mcols; auto|rewrite transpose_nrows, CW; auto|rewrite EX; auto].
      rewrite transpose_mcols, RW. apply sumR_ext. intros i Hi. rewrite transpose_entry by (rewrite ?RW, ?CW; auto). reflexivity.
  Qed.
  (** The covariance of component [j], before and after the division. *)
  Let cov_formula := fitted_cov (gmm_cov_option self) n (entry W) (entry X).
  Lemma mstep_covars : exists Cs, gmm_covars U = Some Cs /\ length Cs = k /\
    forall j, (j < k)%nat -> square d (nth j Cs (Mat [] 0)) /\
      forall a b, (a < d)%nat -> (b < d)%nat -> entry (nth j Cs (Mat [] 0)) a b = cov_formula j a b.
  Proof.
    destruct mstep_means as (MW & MR & MC & ME). eexists. split.
    { unfold U, update_params. cbn [gmm_covars]. fold sums. rewrite EX. fold meansU. reflexivity. }
    split; [rewrite map_length, seq_length; reflexivity|]. intros j Hj. fold k. rewrite nth_map_seq by auto.
    set (G := fun i => compute_cov self (vsub (nth i (mrows X) []) (nth j (mrows meansU) [])) (nth j (nth i (mrows W) []) nzero)).
    assert (LM : length (nth j (mrows meansU) []) = d) by (rewrite (mwf_row meansU j MW); [exact MC|lia]).
    rewrite RW.
    (* rows beyond n play no part; give them the right shape *)
    set (G' := fun i => if (i <? n)%nat then G i else zeros d d).
    assert (EG : fold_left (fun acc i => mzip nadd acc (compute_cov self (vsub (nth i (mrows X) []) (nth j (mrows meansU) [])) (nth j (nth i (mrows W) []) nzero))) (seq 0 n) (zeros d d)
       = fold_left (fun acc i => mzip nadd acc (G' i)) (seq 0 n) (zeros d d)).
    { assert (Q : forall l Z, Forall (fun i => (i < n)%nat) l -> fold_left (fun acc i => mzip nadd acc (G i)) l Z = fold_left (fun acc i => mzip nadd acc (G' i)) l Z).
      { induction l as [|i l IH]; intros Z Hl; [reflexivity|]. inversion Hl; subst. cbn [fold_left]. rewrite IH by auto. f_equal. f_equal.
        unfold G'. rewrite (proj2 (Nat.ltb_lt _ _)) by auto. reflexivity. }
      apply Q. apply Forall_forall. intros i Hi. apply in_seq in Hi. lia. }
    fold n. rewrite EG.
    assert (DL : forall i, (i < n)%nat -> length (vsub (nth i (mrows X) []) (nth j (mrows meansU) [])) = d).
    { intros i Hi. rewrite vsub_length, LM. rewrite (mwf_row X i WX Hi), EX. apply Nat.min_id. }
    assert (HG : forall i, square d (G' i)).
    { intros i. unfold G'. destruct (Nat.ltb_spec i n) as [Hi|Hi]; [|apply zeros_square]. apply (compute_cov_entry self _ _ d (DL i Hi)). }
    destruct (fold_mzip d G' n HG 0 (zeros d d) (zeros_square d)) as (SF & EF).
    set (Fo := fold_left (fun acc i => mzip nadd acc (G' i)) (seq 0 n) (zeros d d)) in *.
    assert (EF' : forall a b, (a < d)%nat -> (b < d)%nat -> entry Fo a b =
      match gmm_cov_option self with
      | CovDiagonal => if (a =? b)%nat then sumR n (fun i => entry W i j * ((entry X i a - entry meansU j a) * (entry X i a - entry meansU j a))) else 0
      | _ => sumR n (fun i => entry W i j * ((entry X i a - entry meansU j a) * (entry X i b - entry meansU j b)))
      end).
    { intros a b Ha Hb. rewrite EF by auto. rewrite zeros_entry by auto. rewrite Rplus_0_l.
      assert (DE : forall i c, (i < n)%nat -> (c < d)%nat -> nth c (vsub (nth i (mrows X) []) (nth j (mrows meansU) [])) 0 = entry X i c - entry meansU j c).
      { intros i c Hi Hc. unfold vsub. rewrite (map2_nth _ _ _ _ 0 0); [reflexivity| |lia]. rewrite (mwf_row X i WX Hi). lia. }
      assert (GE : forall i, (i < n)%nat -> entry (G' (0 + i)%nat) a b =
        match gmm_cov_option self with
        | CovDiagonal => if (a =? b)%nat then entry W i j * ((entry X i a - entry meansU j a) * (entry X i a - entry meansU j a)) else 0
        | _ => entry W i j * ((entry X i a - entry meansU j a) * (entry X i b - entry meansU j b))
        end).
      { intros i Hi. cbn [Nat.add]. unfold G'. rewrite (proj2 (Nat.ltb_lt _ _)) by auto. unfold G.
        destruct (compute_cov_entry self _ (nth j (nth i (mrows W) []) nzero) d (DL i Hi)) as (_ & CE). rewrite CE by auto.
        change (nth j (nth i (mrows W) []) nzero) with (entry W i j).
        destruct (gmm_cov_option self); [|..|destruct (a =? b)%nat; [|reflexivity]]; rewrite !DE by auto; ring. }
      rewrite (sumR_ext n _ _ GE). destruct (gmm_cov_option self); auto. destruct (a =? b)%nat; [reflexivity|]. apply sumR_zero. auto. }
    assert (EM : forall a, (a < d)%nat -> entry meansU j a = wmean n (entry W) (entry X) j a) by (intros; apply ME; auto).
    rewrite sums_nth by auto. unfold cov_formula, fitted_cov. destruct (gmm_cov_option self) as [|eps|].
    - split; [apply mmap_square; exact SF|]. intros a b Ha Hb. destruct SF as (S1 & S2 & S3).
      rewrite mmap_entry by (auto; lia). rewrite EF' by auto. rewrite !EM by auto. reflexivity.
    - pose proof (mzip_square nadd _ _ d SF (scaled_identity_square d eps)) as SZ. split; [apply mmap_square; exact SZ|].
      intros a b Ha Hb. rewrite mmap_entry; [|apply SZ|rewrite (proj1 (proj2 SZ)); auto|rewrite (proj2 (proj2 SZ)); auto].
      rewrite (mzip_entry nadd _ _ a b d SF (scaled_identity_square d eps)) by auto. rewrite scaled_identity_entry by auto.
      rewrite EF' by auto. rewrite !EM by auto. unfold wcov. cbn [nadd ndiv NumR]. pose proof (wsum_pos j Hj). destruct (a =? b)%nat; field; lra.
    - split; [apply mmap_square; exact SF|]. intros a b Ha Hb. destruct SF as (S1 & S2 & S3).
      rewrite mmap_entry by (auto; lia). rewrite EF' by auto. destruct (a =? b)%nat.
      + rewrite !EM by auto. reflexivity.
      + cbn [ndiv NumR]. unfold Rdiv. ring.
  Qed.
  Lemma wcov_ge0 j u : (j < k)%nat -> 0 <= sumR d (fun a => sumR d (fun b => u a * wcov n (entry W) (entry X) j a b * u b)).
  Proof.
    intros Hj. unfold wcov, Rdiv. rewrite form_scale. apply Rmult_le_pos; [left; apply Rinv_0_lt_compat, wsum_pos; auto|].
    rewrite (form_sum d n (fun i a b => entry W i j * ((entry X i a - wmean n (entry W) (entry X) j a) * (entry X i b - wmean n (entry W) (entry X) j b)))).
    apply sumR_ge0. intros i Hi.
    rewrite (sumR_ext d _ (fun a => sumR d (fun b => u a * (((entry X i a - wmean n (entry W) (entry X) j a) * (entry X i b - wmean n (entry W) (entry X) j b)) * entry W i j) * u b)))
      by (intros; apply sumR_ext; intros; ring).
    rewrite form_scale. apply Rmult_le_pos; [left; apply HW; auto|].
    rewrite (outer_form d (fun a => entry X i a - wmean n (entry W) (entry X) j a) u). apply Rle_0_sqr.
  Qed.
  Lemma wcov_sym j a b : wcov n (entry W) (entry X) j a b = wcov n (entry W) (entry X) j b a.
  Proof. unfold wcov. f_equal. apply sumR_ext. intros. ring. Qed.
  Lemma mstep_mixture : match gmm_cov_option self with CovRegularized eps => 0 <= eps | _ => True end -> mixture d U.
  Proof.
    intros He. split; [exact mstep_distribution|]. destruct mstep_means as (MW & MR & MC & ME). split.
    { exists meansU. split; [apply mstep_means_eq|]. split; [exact MW|]. split; [exact MR|exact MC]. }
    destruct mstep_covars as (Cs & EC & LC & HC). exists Cs. split; [exact EC|]. split; [exact LC|].
    apply Forall_forall. intros C HIn. destruct (In_nth _ _ (Mat [] 0) HIn) as (j & Hj & <-). rewrite LC in Hj.
    destruct (HC j Hj) as (SC & EE). apply covariance_intro with (f := cov_formula j); auto.
    - intros a b _ _. unfold cov_formula, fitted_cov. destruct (gmm_cov_option self).
      + apply wcov_sym.
      + rewrite wcov_sym, (Nat.eqb_sym b a). reflexivity.
      + rewrite (Nat.eqb_sym b a). destruct (Nat.eqb_spec a b); [subst|]; reflexivity.
    - intros u. unfold cov_formula, fitted_cov. destruct (gmm_cov_option self) as [|eps|].
      + apply wcov_ge0; auto.
      + rewrite form_plus. rewrite (diag_form d (fun _ => eps / wsum n (entry W) j) u).
        pose proof (wcov_ge0 j u Hj). assert (0 <= sumR d (fun a => eps / wsum n (entry W) j * (u a * u a))); [|lra].
        apply sumR_ge0. intros a _. apply Rmult_le_pos; [|apply Rle_0_sqr]. apply Rmult_le_pos; [exact He|]. left. apply Rinv_0_lt_compat, wsum_pos; auto.
      + rewrite (diag_form d (fun a => wcov n (entry W) (entry X) j a a) u). apply sumR_ge0. intros a _.
        apply Rmult_le_pos; [|apply Rle_0_sqr]. unfold wcov. apply Rmult_le_pos; [|left; apply Rinv_0_lt_compat, wsum_pos; auto].
        apply sumR_ge0. intros i Hi. apply Rmult_le_pos; [left; apply HW; auto|apply Rle_0_sqr].
  Qed.
  (** The mixture has the mean of the data. *)
  Lemma mstep_mean a : (a < d)%nat -> sumR k (fun j => nth j (gmm_mix_weights U) 0 * entry meansU j a) = sumR n (fun i => entry X i a) / INR n.
  Proof.
    intros Ha. assert (HN : 0 < INR n) by (apply lt_0_INR; exact HR).
    destruct mstep_weights as (_ & H1). destruct mstep_means as (_ & _ & _ & H2).
    rewrite (sumR_ext k _ (fun j => sumR n (fun i => entry W i j * entry X i a) * / INR n)).
    2:{ intros j Hj. rewrite H1, H2 by auto. unfold wmean. pose proof (wsum_pos j Hj). field. split; lra. }
    rewrite sumR_scal_r, sumR_exch. unfold Rdiv. f_equal. apply sumR_ext. intros i Hi. rewrite sumR_scal_r.
    destruct (HW i Hi) as (_ & E). change (sumR k (fun j => entry W i j)) with (sumR k (entry W i)). unfold k. rewrite E. ring.
  Qed.
End MStep.
