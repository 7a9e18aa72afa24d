(** The log-likelihood never falls during training. *)
From Coq Require Import List Arith Lia Bool Reals Lra.
From Verif Require Import Base BaseLemmas Num NumFn Linalg LinalgR Spec_Calc CalcR MatR Proof_KMeans Model_Rand Model_GMM Spec_GMM
  Proof_GMM Proof_GMM2 Proof_GMM3 Proof_GMM4 Proof_GMMEx Proof_EM.
Import ListNotations.
Local Open Scope R_scope.

Lemma gauss_ln d det Ci x mu : 0 < det -> ln (gauss d det Ci x mu) = - (1 / 2) * quad d Ci x mu - 1 / 2 * ln det.
Proof.
  intros H. assert (0 < sqrt det) by (apply sqrt_lt_R0; auto). unfold gauss, Rdiv at 1. rewrite ln_mult, ln_exp, ln_Rinv by (auto using exp_pos, Rinv_0_lt_compat).
  assert (E : ln det = ln (sqrt det) + ln (sqrt det)) by (rewrite <- ln_mult, sqrt_sqrt by lra; reflexivity). lra.
Qed.
Lemma wcov_shift n W X j a b ma mb : 0 < wsum n W j ->
  sumR n (fun i => W i j * ((X i a - ma) * (X i b - mb))) = wsum n W j * (wcov n W X j a b + (wmean n W X j a - ma) * (wmean n W X j b - mb)).
Proof.
  intros H. unfold wcov. set (N := wsum n W j) in *. set (p := wmean n W X j a). set (q := wmean n W X j b).
  assert (Ep : sumR n (fun i => W i j * X i a) = N * p) by (unfold p, wmean; fold N; field; lra).
  assert (Eq : sumR n (fun i => W i j * X i b) = N * q) by (unfold q, wmean; fold N; field; lra).
  rewrite (sumR_ext n (fun i => W i j * ((X i a - ma) * (X i b - mb)))
    (fun i => W i j * ((X i a - p) * (X i b - q)) + ((q - mb) * (W i j * X i a) + (p - ma) * (W i j * X i b) + (ma * mb - p * q) * W i j))) by (intros; ring).
  rewrite !sumR_plus, !sumR_scal, Ep, Eq. fold (wsum n W j). fold N. field. lra.
Qed.
Lemma wquad d n W X j P mu : 0 < wsum n W j ->
  sumR n (fun i => W i j * quad d P (X i) mu) = wsum n W j *
    (sumR d (fun a => sumR d (fun b => entry P a b * wcov n W X j a b)) + qform d (entry P) (fun a => wmean n W X j a - mu a)).
Proof.
  intros H. unfold quad, qform.
  rewrite (sumR_ext n _ (fun i => sumR d (fun a => sumR d (fun b => entry P a b * (W i j * ((X i a - mu a) * (X i b - mu b))))))).
  2:{ intros i Hi. rewrite <- sumR_scal.
      rewrite (sumR_ext d _ (fun b => sumR d (fun a => entry P a b * (W i j * ((X i a - mu a) * (X i b - mu b)))))).
      - apply sumR_exch.
      - intros b Hb. rewrite <- sumR_scal_r, <- sumR_scal. apply sumR_ext. intros; ring. }
  rewrite sumR_exch, <- sumR_plus, <- sumR_scal. apply sumR_ext. intros a Ha.
  rewrite sumR_exch, <- sumR_plus, <- sumR_scal. apply sumR_ext. intros b Hb.
  rewrite sumR_scal, wcov_shift by auto. ring.
Qed.
Lemma qform_zero d A u : (forall a, (a < d)%nat -> u a = 0) -> qform d A u = 0.
Proof. intros H. unfold qform. apply sumR_zero. intros i Hi. apply sumR_zero. intros j Hj. rewrite (H i Hi). ring. Qed.

Lemma covariance_sym d C : covariance d C -> sym d (entry C) /\ psdm d (entry C).
Proof. intros (_ & _ & _ & S & P). split; [exact S|exact P]. Qed.
Lemma inverse_diag d C P : is_inv d C P -> (forall a b, (a < d)%nat -> (b < d)%nat -> a <> b -> C a b = 0) ->
  forall a b, (a < d)%nat -> (b < d)%nat -> a <> b -> P a b = 0.
Proof.
  intros HI HC a b Ha Hb Hab.
  assert (K : forall c, (c < d)%nat -> C a a * P a c = if (a =? c)%nat then 1 else 0).
  { intros c Hc. rewrite <- HI by auto. rewrite (sumR_single d _ a); auto. intros i Hi Hia. rewrite HC by auto. ring. }
  pose proof (K a Ha) as K1. rewrite Nat.eqb_refl in K1. pose proof (K b Hb) as K2. destruct (Nat.eqb_spec a b); [lia|].
  assert (C a a <> 0) by (intros E; rewrite E in K1; lra). apply Rmult_integral in K2. tauto.
Qed.
Lemma inverse_trace d C P : sym d C -> is_inv d C P -> sumR d (fun a => sumR d (fun b => P a b * C a b)) = INR d.
Proof.
  intros HS HI. rewrite sumR_exch. rewrite (sumR_ext d _ (fun _ => 1)); [rewrite sumR_const; ring|].
  intros b Hb. rewrite (sumR_ext d _ (fun a => C b a * P a b)) by (intros a Ha; rewrite (HS a b) by auto; ring). rewrite HI by auto. now rewrite Nat.eqb_refl.
Qed.

Section EM.
  Variable lup : matrix R -> res (R * matrix R).
  Variable D : (nat -> nat -> R) -> R.
  Variable X : matrix R.
  Hypothesis lup_ok : lup_sound lup.
  Hypothesis D_ok : determinant (mcols X) D.
  Hypothesis lup_D : lup_det (mcols X) D lup.

  Lemma em_step W self self1 g g1 : mixture (mcols X) self -> mixture (mcols X) self1 -> configured_like self1 self ->
    gmm_comp_count self <> O -> (0 < nrows X)%nat -> gmm_cov_option self = CovFull \/ gmm_cov_option self = CovDiagonal -> diagonal_if self ->
    component_densities lup (mcols X) self g -> component_densities lup (mcols X) self1 g1 ->
    (forall i j, (i < nrows X)%nat -> (j < gmm_comp_count self)%nat -> W i j = bayes (gmm_comp_count self) (gmm_mix_weights self) g (entry X i) j) ->
    fitted X W self1 -> log_likelihood X self g <= log_likelihood X self1 g1 /\ diagonal_if self1.
  Proof.
    intros HM HM1 (EK & EO & _) Hk Hn Hopt Hdiag HG HG1 HW HF.
    destruct HM as ((Lw & Pw & Sw) & _ & (Cs & ECs & LCs & FCs)). destruct HM1 as ((Lw1 & Pw1 & Sw1) & _ & (Cs1 & ECs1 & LCs1 & FCs1)).
    destruct HG as (M & Cs' & EM & E' & HG). rewrite ECs in E'. injection E' as <-.
    destruct HG1 as (M1 & Cs1' & EM1 & E' & HG1). rewrite ECs1 in E'. injection E' as <-.
    destruct HF as (Fw & M1' & Cs1' & E' & E'' & FF). rewrite EM1 in E'. injection E' as <-. rewrite ECs1 in E''. injection E'' as <-.
    rewrite EK in *. rewrite EO in *. set (k := gmm_comp_count self) in *. set (n := nrows X) in *. set (d := mcols X) in *.
    set (w := gmm_mix_weights self) in *. set (w1 := gmm_mix_weights self1) in *.
    assert (HC : forall j, (j < k)%nat -> covariance d (nth j Cs (Mat [] 0))) by (intros j Hj; rewrite Forall_forall in FCs; apply FCs, nth_In; lia).
    assert (HC1 : forall j, (j < k)%nat -> covariance d (nth j Cs1 (Mat [] 0))) by (intros j Hj; rewrite Forall_forall in FCs1; apply FCs1, nth_In; lia).
    assert (D1 : diagonal_if self1).
    { intros O Cs2 E2 C HIn a b Ha Hb Hab. rewrite ECs1 in E2. injection E2 as <-. destruct (In_nth _ _ (Mat [] 0) HIn) as (j & Hj & <-). rewrite LCs1 in Hj.
      destruct (HC1 j Hj) as (_ & _ & Ed & _). rewrite Ed in Ha, Hb. destruct (FF j a Hj Ha) as (_ & K). rewrite (K b Hb). rewrite EO in O. rewrite O. cbn [fitted_cov].
      destruct (Nat.eqb_spec a b); [lia|reflexivity]. }
    split; [|exact D1].
    assert (Pg : forall i j, (j < k)%nat -> 0 < g j (entry X i)).
    { intros i j Hj. destruct (HG j Hj) as (det & Ci & El & Eg). rewrite Eg. apply gauss_pos. exact (proj1 (lup_ok _ _ _ _ (HC j Hj) El)). }
    assert (Pg1 : forall i j, (j < k)%nat -> 0 < g1 j (entry X i)).
    { intros i j Hj. destruct (HG1 j Hj) as (det & Ci & El & Eg). rewrite Eg. apply gauss_pos. exact (proj1 (lup_ok _ _ _ _ (HC1 j Hj) El)). }
    set (p := fun i j => nth j w 0 * g j (entry X i)). set (p1 := fun i j => nth j w1 0 * g1 j (entry X i)).
    assert (Pp : forall i j, (j < k)%nat -> 0 < p i j) by (intros; apply Rmult_lt_0_compat; auto).
    assert (Pp1 : forall i j, (j < k)%nat -> 0 < p1 i j) by (intros; apply Rmult_lt_0_compat; auto).
    assert (Hk0 : (0 < k)%nat) by lia.
    assert (Ps : forall i, 0 < sumR k (p i)) by (intros; apply sumR_pos; auto).
    assert (EW : forall i j, (i < n)%nat -> (j < k)%nat -> W i j = p i j / sumR k (p i)) by (intros i j Hi Hj; rewrite HW by auto; reflexivity).
    assert (PW : forall i j, (i < n)%nat -> (j < k)%nat -> 0 < W i j) by (intros; rewrite EW by auto; apply Rdiv_lt_0_compat; auto).
    assert (PN : forall j, (j < k)%nat -> 0 < wsum n W j) by (intros; apply sumR_pos; auto).
    assert (n0 : 0 < INR n) by (apply lt_0_INR; auto).
    assert (SW : forall i, (i < n)%nat -> sumR k (W i) = 1).
    { intros i Hi. rewrite (sumR_ext k _ (fun j => p i j / sumR k (p i))) by (intros; apply EW; auto). unfold Rdiv. rewrite sumR_scal_r. field. specialize (Ps i). lra. }
    unfold log_likelihood, mixture_density. fold k n w w1.
    assert (J : sumR n (fun i => sumR k (fun j => W i j * (ln (p1 i j) - ln (p i j)))) <= sumR n (fun i => ln (sumR k (p1 i)) - ln (sumR k (p i)))).
    { apply sumR_le. intros i Hi. rewrite (sumR_ext k _ (fun j => p i j / sumR k (p i) * (ln (p1 i j) - ln (p i j)))) by (intros; rewrite EW by auto; reflexivity). apply jensen; auto. }
    rewrite sumR_minus in J. fold k. change (fun l => nth l w1 0 * _) with (p1) in J.
    enough (K : 0 <= sumR n (fun i => sumR k (fun j => W i j * (ln (p1 i j) - ln (p i j))))).
    { apply Rminus_le. unfold p, p1 in *. rewrite EK. fold k. lra. }
    clear J. rewrite sumR_exch.
    rewrite (sumR_ext k _ (fun j => wsum n W j * (ln (nth j w1 0) - ln (nth j w 0)) + sumR n (fun i => W i j * (ln (g1 j (entry X i)) - ln (g j (entry X i)))))).
    2:{ intros j Hj. unfold wsum. rewrite <- sumR_scal_r, <- sumR_plus. apply sumR_ext. intros i Hi. unfold p, p1. rewrite !ln_mult by auto. ring. }
    rewrite sumR_plus. apply Rplus_le_le_0_compat.
    - (* weights *)
      assert (K : sumR k (fun j => wsum n W j * (ln (nth j w 0) - ln (nth j w1 0))) <= sumR k (fun j => INR n * nth j w 0 - wsum n W j)).
      { apply sumR_le. intros j Hj. specialize (PN j Hj). specialize (Fw j Hj). specialize (Pw j Hj). fold w1 n in Fw.
        assert (P1 : 0 < nth j w1 0) by auto.
        pose proof (ln_le_sub1 (nth j w 0 / nth j w1 0) ltac:(apply Rdiv_lt_0_compat; auto)) as L. unfold Rdiv in L at 1. rewrite ln_mult, ln_Rinv in L by (auto using Rinv_0_lt_compat).
        apply (Rmult_le_compat_l (wsum n W j)) in L; [|lra].
        replace (wsum n W j * (nth j w 0 / nth j w1 0 - 1)) with (INR n * nth j w 0 - wsum n W j) in L by (rewrite Fw; field; lra). lra. }
      rewrite sumR_minus, sumR_scal, Sw in K. unfold wsum in K at 2. rewrite sumR_exch in K. rewrite (sumR_ext n _ (fun _ => 1)) in K by auto. rewrite sumR_const in K.
      rewrite (sumR_ext k _ (fun j => -1 * (wsum n W j * (ln (nth j w1 0) - ln (nth j w 0))))) in K by (intros; ring). rewrite sumR_scal in K. lra.
    - apply sumR_ge0. intros j Hj. specialize (PN j Hj).
      destruct (HG j Hj) as (det & Ci & El & Eg). destruct (HG1 j Hj) as (det1 & Ci1 & El1 & Eg1).
      destruct (lup_ok _ _ _ _ (HC j Hj) El) as (Pd & _ & _ & _ & HI). destruct (lup_ok _ _ _ _ (HC1 j Hj) El1) as (Pd1 & _ & _ & _ & HI1).
      rewrite (sumR_ext n _ (fun i => (1 / 2) * (W i j * quad d Ci (entry X i) (entry M j)) - (1 / 2) * (W i j * quad d Ci1 (entry X i) (entry M1 j)) + W i j * (1 / 2 * (ln det - ln det1)))).
      2:{ intros i Hi. rewrite Eg, Eg1, !gauss_ln by auto. ring. }
      rewrite sumR_plus, sumR_minus, !sumR_scal, !wquad, sumR_scal_r by auto. fold (wsum n W j).
      rewrite (qform_zero d (entry Ci1)) by (intros a Ha; destruct (FF j a Hj Ha) as (-> & _); ring).
      set (C := entry (nth j Cs (Mat [] 0))) in *. set (C1 := entry (nth j Cs1 (Mat [] 0))) in *.
      destruct (covariance_sym _ _ (HC j Hj)) as (SC & PC). destruct (covariance_sym _ _ (HC1 j Hj)) as (SC1 & PC1). fold C in SC, PC. fold C1 in SC1, PC1.
      assert (Tr : forall P B Cv, covariance d Cv -> is_inv d (entry Cv) P -> (gmm_cov_option self = CovDiagonal -> forall a b, (a < d)%nat -> (b < d)%nat -> a <> b -> entry Cv a b = 0) -> B = P ->
        sumR d (fun a => sumR d (fun b => B a b * wcov n W (entry X) j a b)) = sumR d (fun a => sumR d (fun b => P a b * C1 a b))).
      { intros P B Cv _ HIv Hd ->. apply sumR_ext. intros a Ha. apply sumR_ext. intros b Hb. destruct (FF j a Hj Ha) as (_ & Q). specialize (Q b Hb). fold C1 in Q. fold n in Q. rewrite Q.
        destruct Hopt as [O|O]; rewrite O; cbn [fitted_cov]; [reflexivity|]. destruct (Nat.eqb_spec a b) as [->|Hab]; [reflexivity|].
        rewrite (inverse_diag d _ _ HIv (Hd O) a b) by auto. ring. }
      rewrite (Tr (entry Ci) (entry Ci) (nth j Cs (Mat [] 0))); auto.
      2:{ intros O a b Ha Hb Hab. destruct (HC j Hj) as (_ & _ & Ed & _). apply (Hdiag O Cs ECs); rewrite ?Ed; auto. apply nth_In. lia. }
      rewrite (Tr (entry Ci1) (entry Ci1) (nth j Cs1 (Mat [] 0))); auto.
      2:{ intros O a b Ha Hb Hab. destruct (HC1 j Hj) as (_ & _ & Ed & _). apply (D1 ltac:(congruence) Cs1 ECs1); rewrite ?Ed; auto. apply nth_In. lia. }
      rewrite (inverse_trace d C1 (entry Ci1)) by auto.
      pose proof (inv_psd d C (entry Ci) SC PC HI (fun a => wmean n W (entry X) j a - entry M j a)) as Q.
      pose proof (lup_D _ _ _ (HC j Hj) El) as Ed. pose proof (lup_D _ _ _ (HC1 j Hj) El1) as Ed1. fold C in Ed. fold C1 in Ed1.
      pose proof (det_trace d D D_ok C (entry Ci) C1 SC PC HI ltac:(lra) SC1 PC1 ltac:(lra)) as T. rewrite <- Ed, <- Ed1 in T.
      set (t := sumR d (fun a => sumR d (fun b => entry Ci a b * C1 a b))) in *. set (q := qform d (entry Ci) _) in *. set (N := wsum n W j) in *.
      replace (1 / 2 * (N * (t + q)) - 1 / 2 * (N * (INR d + 0)) + N * (1 / 2 * (ln det - ln det1))) with (N * (1 / 2) * (t + q + ln det - INR d - ln det1)) by ring.
      apply Rmult_le_pos; lra.
  Qed.

  Lemma densities_ext d self self1 g g1 : gmm_comp_count self = gmm_comp_count self1 -> gmm_means self = gmm_means self1 -> gmm_covars self = gmm_covars self1 ->
    component_densities lup d self g -> component_densities lup d self1 g1 -> forall j x, (j < gmm_comp_count self)%nat -> g j x = g1 j x.
  Proof.
    intros EK EM EC (M & Cs & E1 & E2 & H) (M1 & Cs1 & E3 & E4 & H1) j x Hj. rewrite EM, E3 in E1. injection E1 as <-. rewrite EC, E4 in E2. injection E2 as <-.
    destruct (H j Hj) as (det & Ci & El & ->). destruct (H1 j ltac:(lia)) as (det1 & Ci1 & El1 & ->). rewrite El in El1. injection El1 as <- <-. reflexivity.
  Qed.
  Lemma ll_ext self self1 g g1 d : gmm_comp_count self = gmm_comp_count self1 -> gmm_mix_weights self = gmm_mix_weights self1 -> gmm_means self = gmm_means self1 -> gmm_covars self = gmm_covars self1 ->
    component_densities lup d self g -> component_densities lup d self1 g1 -> log_likelihood X self g = log_likelihood X self1 g1.
  Proof.
    intros EK EW EM EC H H1. unfold log_likelihood, mixture_density. apply sumR_ext. intros i Hi. f_equal. rewrite EW, <- EK. apply sumR_ext. intros l Hl. f_equal.
    eapply densities_ext; eauto.
  Qed.
  Lemma em_loop_likelihood : mwf X -> (0 < nrows X)%nat -> forall m self self' r g g', gmm_comp_count self <> O -> mixture (mcols X) self ->
    gmm_cov_option self = CovFull \/ gmm_cov_option self = CovDiagonal -> diagonal_if self -> em_loop lup m self X = (self', r) ->
    component_densities lup (mcols X) self g -> component_densities lup (mcols X) self' g' -> log_likelihood X self g <= log_likelihood X self' g'.
  Proof.
    intros WX HR. induction m as [|m IH]; intros self self' r g g' Hk HM HO HDi E Hg Hg'; cbn [em_loop] in E.
    - injection E as <- <-. right. eapply ll_ext; eauto.
    - destruct (membership_weights lup self X) as [[W ll]|k|] eqn:EW.
      + destruct (nltb _ _).
        { injection E as <- <-. right. eapply ll_ext; eauto. }
        assert (He : eps_ok self) by (unfold eps_ok; destruct HO as [-> | ->]; exact I).
        destruct (estep_posterior lup lup_ok (mcols X) self X W ll HM WX eq_refl EW) as (g0 & Hg0 & HE & HL).
        destruct (membership_distribution lup lup_ok (mcols X) self HM X W ll Hk WX eq_refl EW) as (WW & RW & CW & HW).
        set (self1 := set_log_lik self ll) in *.
        pose proof (mstep_mixture self1 X W (mcols X) WX eq_refl RW CW HW HR He) as HM1.
        assert (HF : fitted X (entry W) (update_params self1 X W)).
        { destruct (mstep_weights self1 X W RW CW) as (_ & H1).
          destruct (mstep_means self1 X W (mcols X) eq_refl RW CW HR) as (_ & _ & _ & H2).
          destruct (mstep_covars self1 X W (mcols X) WX eq_refl RW CW HW HR) as (Cs & EC & _ & H3).
          split; [exact H1|]. eexists. exists Cs. split; [exact (mstep_means_eq self1 X W (mcols X) eq_refl)|]. split; [exact EC|].
          intros j a Hj Ha. split; [apply H2; auto|]. intros b Hb. apply (H3 j Hj); auto. }
        assert (HD1 : forall g1, component_densities lup (mcols X) (update_params self1 X W) g1 -> log_likelihood X self g <= log_likelihood X (update_params self1 X W) g1 /\ diagonal_if (update_params self1 X W)).
        { intros g1 Hg1. rewrite (ll_ext self self g g0 (mcols X)) by auto. eapply em_step; eauto. repeat split. }
        destruct m as [|m'].
        { cbn [em_loop] in E. injection E as <- <-. apply HD1; auto. }
        destruct (membership_weights lup (update_params self1 X W) X) as [[W1 ll1]|k|] eqn:EW1.
        * destruct (estep_posterior lup lup_ok (mcols X) _ X W1 ll1 HM1 WX eq_refl EW1) as (g1 & Hg1 & _). destruct (HD1 g1 Hg1) as (K1 & K2).
          eapply Rle_trans; [exact K1|]. eapply (IH _ self' r g1 g'); eauto.
        * cbn [em_loop] in E. rewrite EW1 in E. injection E as <- <-. apply HD1; auto.
        * cbn [em_loop] in E. rewrite EW1 in E. injection E as <- <-. apply HD1; auto.
      + injection E as <- <-. right. eapply ll_ext; eauto.
      + injection E as <- <-. right. eapply ll_ext; eauto.
  Qed.
  Theorem train_likelihood self self' r : well_started self -> mwf X -> gmm_cov_option self = CovFull \/ gmm_cov_option self = CovDiagonal ->
    outcome (gmm_train lup self X) (Some (self', r)) -> (1 < nrows X)%nat ->
    exists self0, starting X self self0 /\ em_loop lup (gmm_max_iters self) self0 X = (self', r) /\
      forall g0 g', component_densities lup (mcols X) self0 g0 -> component_densities lup (mcols X) self' g' -> log_likelihood X self0 g0 <= log_likelihood X self' g'.
  Proof.
    intros HS WX HO H HX. destruct (train_shape lup self X self' r WX H) as [(K & _)|(_ & Hle & rows & ND & Hr & Lr & E)]; [lia|].
    eexists. split; [apply starting_set; eauto|]. split; [exact E|]. intros g0 g' H0 H'.
    eapply em_loop_likelihood; eauto; [lia|exact (proj1 HS)|apply start_mixture; auto|].
    intros O Cs EC C HC a b Ha Hb Hab. cbn [gmm_covars set_start] in EC. injection EC as <-. apply repeat_spec in HC. subst C.
    pose proof (initial_covariance self X (1 / INR (nrows X - 1)) HX) as IC. destruct IC as (_ & _ & Ed & _).
    { left. apply Rdiv_lt_0_compat; [lra|]. apply lt_0_INR. lia. } { exact (proj2 (proj2 HS)). }
    rewrite Ed in Ha, Hb. destruct (initial_cov_entry self X (1 / INR (nrows X - 1)) a b Ha Hb) as (_ & ->).
    cbn [gmm_cov_option set_start] in O. rewrite O. destruct (Nat.eqb_spec a b); [lia|]. ring.
  Qed.
End EM.

(** Determinants of size one and two. *)
Lemma determinant1 : determinant 1 (fun A => A 0%nat 0%nat).
Proof.
  split; [intros A B H; apply H; lia|]. split; [intros A B; unfold mprod; cbn; ring|]. split; [reflexivity|]. intros A _. cbn. ring.
Qed.
Lemma determinant2 : determinant 2 (fun A => A 0%nat 0%nat * A 1%nat 1%nat - A 0%nat 1%nat * A 1%nat 0%nat).
Proof.
  split; [intros A B H; rewrite !H by lia; reflexivity|]. split; [intros A B; unfold mprod; cbn; ring|]. split; [intros; ring|].
  intros A H. rewrite (H 0%nat 1%nat) by lia. cbn. ring.
Qed.

Lemma lupR_det : lup_det 1 (fun A => A 0%nat 0%nat) lupR.
Proof.
  intros C det Ci (WC & RC & CC & _). unfold lupR. destruct C as [rows c]. cbn [mrows mcols] in *. destruct rows as [|[|x [|]] [|]]; try discriminate.
  destruct (Req_EM_T x 0); [discriminate|]. intros [= <- <-]. reflexivity.
Qed.
