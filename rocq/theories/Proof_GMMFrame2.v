(** Lemmas for [Props_GMMFrame]: training in two frames. *)
From Coq Require Import List Arith Reals Lra Lia Bool.
From Verif Require Import Base BaseLemmas Num NumFn Linalg LinalgR Spec_Calc CalcR Model_Rand Proof_Rand Proof_KMeans MatR Model_Optim Proof_Optim2 Model_GMM Spec_GMM Proof_GMM Proof_GMM2 Proof_GMM3 Proof_GMM4 Proof_EM Spec_GMMFrame Proof_GMMFrame.
Import ListNotations.
Local Open Scope R_scope.

Lemma frame_nrows A b X : nrows (data_in_frame A b X) = nrows X.
Proof. unfold nrows, data_in_frame. cbn. apply map_length. Qed.
Lemma frame_wf A b X : mwf (data_in_frame A b X).
Proof. unfold mwf, data_in_frame. cbn [mrows mcols]. apply Forall_forall. intros r Hr. apply in_map_iff in Hr. destruct Hr as (x & <- & _). unfold in_frame. now rewrite map_length, seq_length. Qed.
Lemma frame_entry A b X i a : (i < nrows X)%nat -> (a < mcols X)%nat -> entry (data_in_frame A b X) i a = coord (mcols X) A b (entry X i) a.
Proof. intros Hi Ha. unfold entry, data_in_frame. cbn [mrows]. rewrite (nth_map _ _ i [] []) by exact Hi. unfold in_frame. now rewrite nth_map_seq. Qed.
Lemma matrix_eq (P Q : matrix R) : mwf P -> mwf Q -> nrows P = nrows Q -> mcols P = mcols Q -> (forall i j, (i < nrows P)%nat -> (j < mcols P)%nat -> entry P i j = entry Q i j) -> P = Q.
Proof.
  destruct P as [p c], Q as [q c']. intros WP WQ EN EC H. unfold nrows in *. cbn [mrows mcols] in *. subst c'. f_equal.
  apply (nth_ext _ _ [] []); [exact EN|]. intros i Hi. unfold mwf in *. cbn [mrows mcols] in *. rewrite Forall_forall in WP, WQ.
  assert (L1 : length (nth i p []) = c) by (apply WP, nth_In; auto). assert (L2 : length (nth i q []) = c) by (apply WQ, nth_In; lia).
  apply (nth_ext _ _ 0 0); [congruence|]. intros j Hj. apply H; lia.
Qed.

Section Two.
  Variable lup : matrix R -> res (R * matrix R).
  Variables (D : (nat -> nat -> R) -> R) (X : matrix R) (A Ai : nat -> nat -> R) (b : nat -> R).
  Let d := mcols X.
  Let X' := data_in_frame A b X.
  Hypothesis lup_ok : lup_sound lup.
  Hypothesis inv : inverses d A Ai.
  Hypothesis HD : determinant d D.
  Hypothesis Hdet : lup_det d D lup.
  Hypothesis WX : mwf X.
  Let T := coord d A b.

  (** The parameters of [m'] are those of [m] in the frame. *)
  Definition framed (m m' : GMM R) : Prop :=
    gmm_comp_count m' = gmm_comp_count m /\ gmm_cov_option m' = gmm_cov_option m /\
    (forall j, (j < gmm_comp_count m)%nat -> nth j (gmm_mix_weights m') 0 = nth j (gmm_mix_weights m) 0) /\
    exists M M' Cs Cs', gmm_means m = Some M /\ gmm_means m' = Some M' /\ gmm_covars m = Some Cs /\ gmm_covars m' = Some Cs' /\
      forall j, (j < gmm_comp_count m)%nat -> (forall a, (a < d)%nat -> entry M' j a = T (entry M j) a) /\
        forall p q, (p < d)%nat -> (q < d)%nat -> entry (nth j Cs' (Mat [] 0)) p q = conj_by d A (entry (nth j Cs (Mat [] 0))) p q.

  Lemma density_frame m m' g g' : framed m m' -> mixture d m -> mixture d m' -> component_densities lup d m g -> component_densities lup d m' g' ->
    forall j x x', (j < gmm_comp_count m)%nat -> (forall a, (a < d)%nat -> x' a = T x a) -> g' j x' = g j x / Rabs (D A) /\ 0 < g j x.
  Proof.
    intros (Ek & _ & _ & M & M' & Cs & Cs' & EM & EM' & EC & EC' & Rel) HM HM' (N & Es & EN & EEs & HG) (N' & Es' & EN' & EEs' & HG') j x x' Hj Ex.
    rewrite EM in EN. injection EN as <-. rewrite EM' in EN'. injection EN' as <-. rewrite EC in EEs. injection EEs as <-. rewrite EC' in EEs'. injection EEs' as <-.
    destruct (HG j Hj) as (det & Ci & L & G). destruct (HG' j ltac:(lia)) as (det' & Ci' & L' & G'). destruct (Rel j Hj) as [Rm Rc].
    destruct HM as (_ & _ & (Cs1 & E1 & L1 & F1)). rewrite EC in E1. injection E1 as <-. destruct HM' as (_ & _ & (Cs2 & E2 & L2 & F2)). rewrite EC' in E2. injection E2 as <-.
    rewrite Forall_forall in F1, F2.
    assert (C1 : covariance d (nth j Cs (Mat [] 0))) by (apply F1, nth_In; lia). assert (C2 : covariance d (nth j Cs' (Mat [] 0))) by (apply F2, nth_In; lia).
    rewrite G, G'. split; [|apply gauss_pos; exact (proj1 (lup_ok _ _ _ _ C1 L))].
    apply (gauss_frame d A Ai b inv D HD lup lup_ok Hdet (nth j Cs (Mat [] 0)) (nth j Cs' (Mat [] 0)) det det' Ci Ci'); auto.
  Qed.
  Lemma det_pos : 0 < Rabs (D A). Proof. apply Rabs_pos_lt. exact (det_unit d A Ai inv D HD). Qed.
  Lemma mixture_frame m m' g g' : framed m m' -> mixture d m -> mixture d m' -> component_densities lup d m g -> component_densities lup d m' g' ->
    gmm_comp_count m <> O ->
    forall x x', (forall a, (a < d)%nat -> x' a = T x a) ->
    mixture_density (gmm_comp_count m') (gmm_mix_weights m') g' x' = mixture_density (gmm_comp_count m) (gmm_mix_weights m) g x / Rabs (D A) /\
    0 < mixture_density (gmm_comp_count m) (gmm_mix_weights m) g x /\
    forall j, (j < gmm_comp_count m)%nat -> bayes (gmm_comp_count m') (gmm_mix_weights m') g' x' j = bayes (gmm_comp_count m) (gmm_mix_weights m) g x j /\ 0 < bayes (gmm_comp_count m) (gmm_mix_weights m) g x j.
  Proof.
    intros Fr HM HM' Hg Hg' Hk x x' Ex. pose proof (density_frame m m' g g' Fr HM HM' Hg Hg') as DF. destruct Fr as (Ek & _ & Ew & _). destruct HM as ((_ & Pw & _) & _).
    pose proof det_pos as P.
    assert (E : mixture_density (gmm_comp_count m') (gmm_mix_weights m') g' x' = mixture_density (gmm_comp_count m) (gmm_mix_weights m) g x / Rabs (D A)).
    { unfold mixture_density. rewrite Ek. unfold Rdiv. rewrite <- sumR_scal_r. apply sumR_ext. intros j Hj. rewrite Ew by auto. destruct (DF j x x' Hj Ex) as [-> _]. unfold Rdiv. ring. }
    assert (Pm : 0 < mixture_density (gmm_comp_count m) (gmm_mix_weights m) g x).
    { unfold mixture_density. apply sumR_pos; [lia|]. intros j Hj. apply Rmult_lt_0_compat; [now apply Pw|]. now apply (DF j x x'). }
    split; [exact E|]. split; [exact Pm|]. intros j Hj. unfold bayes. rewrite E, Ew by auto. destruct (DF j x x' Hj Ex) as [-> Pg]. split; [field; lra|].
    apply Rdiv_lt_0_compat; [apply Rmult_lt_0_compat; auto|exact Pm].
  Qed.
  Lemma lik_frame m m' g g' : framed m m' -> mixture d m -> mixture d m' -> component_densities lup d m g -> component_densities lup d m' g' -> gmm_comp_count m <> O ->
    log_likelihood X' m' g' = log_likelihood X m g - INR (nrows X) * ln (Rabs (D A)).
  Proof.
    intros Fr HM HM' Hg Hg' Hk. unfold log_likelihood. unfold X'. rewrite frame_nrows. rewrite <- sumR_const, <- sumR_minus. apply sumR_ext. intros i Hi.
    destruct (mixture_frame m m' g g' Fr HM HM' Hg Hg' Hk (entry X i) (entry (data_in_frame A b X) i)) as (-> & P & _).
    - intros a Ha. now apply frame_entry.
    - unfold Rdiv. pose proof det_pos. rewrite ln_mult, ln_Rinv by (auto; now apply Rinv_0_lt_compat). ring.
  Qed.
  Lemma predict_frame m m' : framed m m' -> mixture d m -> mixture d m' -> gmm_comp_count m <> O -> same_memberships lup d A b m m'.
  Proof.
    intros Fr HM HM' Hk Z P P' WZ CZ E E'.
    assert (Ek : gmm_comp_count m' = gmm_comp_count m) by apply Fr.
    assert (WZ' : mwf (data_in_frame A b Z)) by apply frame_wf.
    destruct (predict_posterior lup lup_ok d m Z P HM WZ CZ E) as (g & Hg & HP). destruct (predict_posterior lup lup_ok d m' _ P' HM' WZ' CZ E') as (g' & Hg' & HP').
    destruct (predict_distribution lup lup_ok d m Z P Hk HM WZ CZ E) as (WP & NP & CP & _). destruct (predict_distribution lup lup_ok d m' _ P' ltac:(congruence) HM' WZ' CZ E') as (WP' & NP' & CP' & _).
    rewrite frame_nrows in NP', HP'. apply matrix_eq; auto; try congruence. intros i j Hi Hj. rewrite HP, HP' by lia.
    apply (mixture_frame m m' g g' Fr HM HM' Hg Hg' Hk); [|lia]. intros a Ha. rewrite <- CZ in Ha. rewrite frame_entry by lia. unfold T. now rewrite CZ.
  Qed.

  (** One round, with what [em_round] says and that the new parameters are a mixture again. *)
  Lemma em_round_mixture Y n self self' r : mwf Y -> mcols Y = d -> (0 < nrows Y)%nat -> gmm_comp_count self <> O -> eps_ok self -> mixture d self ->
    em_loop lup (S n) self Y = (self', r) -> r = Ok tt ->
    exists g W, component_densities lup d self g /\
      (forall i j, (i < nrows Y)%nat -> (j < gmm_comp_count self)%nat -> W i j = bayes (gmm_comp_count self) (gmm_mix_weights self) g (entry Y i) j) /\
      ((Rabs (log_likelihood Y self g - gmm_log_lik self) < 1 / 10 ^ 15 /\ self' = self) \/
       exists self1, ~ Rabs (log_likelihood Y self g - gmm_log_lik self) < 1 / 10 ^ 15 /\ configured_like self1 self /\ gmm_log_lik self1 = log_likelihood Y self g /\ fitted Y W self1 /\ mixture d self1 /\ em_loop lup n self1 Y = (self', r)).
  Proof.
    intros WY CY HR Hk He HM E Er. cbn [em_loop] in E. destruct (membership_weights lup self Y) as [[W ll]|k|] eqn:EW; [|injection E as <- <-; discriminate|injection E as <- <-; discriminate].
    rewrite <- CY in HM. destruct (estep_posterior lup lup_ok (mcols Y) self Y W ll HM WY eq_refl EW) as (g & Hg & HE & HL).
    destruct (membership_distribution lup lup_ok (mcols Y) self HM Y W ll Hk WY eq_refl EW) as (WW & RW & CW & HW).
    exists g, (entry W). rewrite <- CY. split; [exact Hg|]. split; [exact HE|]. unfold log_likelihood. rewrite <- HL.
    rewrite pow10_R in E. cbn [nltb nabs nsub ndiv nonev NumR] in E. destruct (Rlt_dec _ _) as [Hl|Hl].
    { left. injection E as <- <-. split; [exact Hl|reflexivity]. }
    right. exists (update_params (set_log_lik self ll) Y W). split; [exact Hl|]. split; [repeat split|]. split; [reflexivity|].
    destruct (mstep_weights (set_log_lik self ll) Y W RW CW) as (_ & H1).
    destruct (mstep_means (set_log_lik self ll) Y W (mcols Y) eq_refl RW CW HR) as (_ & _ & _ & H2).
    destruct (mstep_covars (set_log_lik self ll) Y W (mcols Y) WY eq_refl RW CW HW HR) as (Cs & EC & _ & H3).
    split.
    { split; [exact H1|]. eexists. exists Cs. split; [exact (mstep_means_eq (set_log_lik self ll) Y W (mcols Y) eq_refl)|]. split; [exact EC|].
      intros j a Hj Ha. split; [apply H2; auto|]. intros q Hq. apply (H3 j Hj); auto. }
    split; [|exact E]. exact (mstep_mixture (set_log_lik self ll) Y W (mcols Y) WY eq_refl RW CW HW HR He).
  Qed.
  Lemma fitted_frame W W' m m' : suits (gmm_cov_option m) d A -> (0 < nrows X)%nat -> gmm_comp_count m' = gmm_comp_count m -> gmm_cov_option m' = gmm_cov_option m ->
    (forall i j, (i < nrows X)%nat -> (j < gmm_comp_count m)%nat -> W' i j = W i j /\ 0 < W i j) -> fitted X W m -> fitted X' W' m' -> framed m m'.
  Proof.
    intros Su HR Ek Eo HW (Fw & M & Cs & EM & EC & HF) (Fw' & M' & Cs' & EM' & EC' & HF'). unfold X' in *. rewrite frame_nrows in *.
    assert (Es : forall j, (j < gmm_comp_count m)%nat -> wsum (nrows X) W' j = wsum (nrows X) W j) by (intros j Hj; apply sumR_ext; intros i Hi; now apply HW).
    split; [exact Ek|]. split; [exact Eo|]. split. { intros j Hj. rewrite Fw, Fw', Es by lia. reflexivity. }
    exists M, M', Cs, Cs'. repeat (split; [assumption|]). intros j Hj.
    assert (Ps : wsum (nrows X) W j <> 0) by (apply Rgt_not_eq, sumR_pos; [exact HR|]; intros i Hi; now apply HW).
    destruct (fitted_cov_frame d A b (gmm_cov_option m) (nrows X) W (entry X) (entry (data_in_frame A b X)) j Su) as [Fm Fc]; auto.
    { intros i a Hi Ha. now apply frame_entry. }
    assert (Em : forall a, wmean (nrows X) W' (entry (data_in_frame A b X)) j a = wmean (nrows X) W (entry (data_in_frame A b X)) j a).
    { intro a. unfold wmean. rewrite Es by auto. f_equal. apply sumR_ext. intros i Hi. now rewrite (proj1 (HW i j Hi Hj)). }
    assert (Ec : forall p q, fitted_cov (gmm_cov_option m) (nrows X) W' (entry (data_in_frame A b X)) j p q = fitted_cov (gmm_cov_option m) (nrows X) W (entry (data_in_frame A b X)) j p q).
    { assert (K : forall p q, wcov (nrows X) W' (entry (data_in_frame A b X)) j p q = wcov (nrows X) W (entry (data_in_frame A b X)) j p q).
      { intros p q. unfold wcov. rewrite Es, !Em by auto. f_equal. apply sumR_ext. intros i Hi. now rewrite (proj1 (HW i j Hi Hj)). }
      intros p q. destruct (gmm_cov_option m); cbn [fitted_cov]; rewrite !K; rewrite ?Es by auto; reflexivity. }
    split.
    - intros a Ha. destruct (HF j a Hj Ha) as [HM _]. destruct (HF' j a ltac:(lia) Ha) as [HM' _]. rewrite HM', Em, Fm by auto. unfold T, coord. f_equal. apply sumR_ext. intros c Hc.
      destruct (HF j c Hj Hc) as [-> _]. reflexivity.
    - intros p q Hp Hq. destruct (HF' j p ltac:(lia) Hp) as [_ HC']. rewrite HC', Eo, Ec, Fc by auto. apply conj_ext. intros c e Hc Hce. destruct (HF j c Hj Hc) as [_ HC]. symmetry. now apply HC.
  Qed.

  (** Both loops run for the same number of rounds. *)
  Theorem em_frame : (0 < nrows X)%nat -> forall n m m' r r', framed m m' -> mixture d m -> mixture d m' -> gmm_comp_count m <> O -> eps_ok m -> suits (gmm_cov_option m) d A ->
    gmm_log_lik m' = gmm_log_lik m - INR (nrows X) * ln (Rabs (D A)) -> em_loop lup n m X = (r, Ok tt) -> em_loop lup n m' X' = (r', Ok tt) ->
    framed r r' /\ mixture d r /\ mixture d r' /\ gmm_comp_count r <> O.
  Proof.
    intros HR. induction n as [|n IH]; intros m m' r r' Fr HM HM' Hk He Su El E E'.
    { cbn [em_loop] in E, E'. injection E as <-. injection E' as <-. auto. }
    assert (Ek : gmm_comp_count m' = gmm_comp_count m) by apply Fr. assert (Eo : gmm_cov_option m' = gmm_cov_option m) by apply Fr.
    assert (He' : eps_ok m') by (unfold eps_ok; rewrite Eo; exact He).
    destruct (em_round_mixture X n m r (Ok tt) WX eq_refl HR Hk He HM E eq_refl) as (g & W & Hg & HW & St).
    assert (HR' : (0 < nrows X')%nat) by (unfold X'; now rewrite frame_nrows).
    destruct (em_round_mixture X' n m' r' (Ok tt) (frame_wf A b X) eq_refl HR' ltac:(congruence) He' HM' E' eq_refl) as (g' & W' & Hg' & HW' & St').
    rewrite (lik_frame m m' g g' Fr HM HM' Hg Hg' Hk), El in St'.
    replace (log_likelihood X m g - INR (nrows X) * ln (Rabs (D A)) - (gmm_log_lik m - INR (nrows X) * ln (Rabs (D A)))) with (log_likelihood X m g - gmm_log_lik m) in St' by ring.
    destruct St as [(S1 & ->)|(m1 & S1 & (C1 & C2 & C3) & L1 & F1 & M1 & E1)]; destruct St' as [(S1' & ->)|(m1' & S1' & (C1' & C2' & C3') & L1' & F1' & M1' & E1')]; try contradiction; auto.
    apply (IH m1 m1' r r'); auto; try congruence.
    - apply (fitted_frame W W'); auto; try congruence. intros i j Hi Hj. rewrite C1 in Hj. unfold X' in HW'. rewrite frame_nrows in HW'. rewrite HW, HW' by lia.
      apply (mixture_frame m m' g g' Fr HM HM' Hg Hg' Hk); auto. intros a Ha. now apply frame_entry.
    - unfold eps_ok. now rewrite C2.
  Qed.
  (** The first round compares with the number that was stored before. *)
  Theorem em_frame_start : (0 < nrows X)%nat -> forall n m m' r r', framed m m' -> mixture d m -> mixture d m' -> gmm_comp_count m <> O -> eps_ok m -> suits (gmm_cov_option m) d A ->
    gmm_log_lik m' = gmm_log_lik m -> em_loop lup n m X = (r, Ok tt) -> em_loop lup n m' X' = (r', Ok tt) ->
    (framed r r' /\ mixture d r /\ mixture d r' /\ gmm_comp_count r <> O) \/
    (Rabs (D A) <> 1 /\ r = m /\ exists g, component_densities lup d m g /\ Rabs (log_likelihood X m g - gmm_log_lik m) < 1 / 10 ^ 15) \/
    (Rabs (D A) <> 1 /\ r' = m' /\ exists g, component_densities lup d m' g /\ Rabs (log_likelihood X' m' g - gmm_log_lik m') < 1 / 10 ^ 15).
  Proof.
    intros HR n m m' r r' Fr HM HM' Hk He Su El E E'. destruct (Req_dec (Rabs (D A)) 1) as [U|U].
    { left. apply (em_frame HR n m m'); auto. rewrite U, ln_1, El. ring. }
    destruct n as [|n]. { cbn [em_loop] in E, E'. injection E as <-. injection E' as <-. auto. }
    assert (Ek : gmm_comp_count m' = gmm_comp_count m) by apply Fr. assert (Eo : gmm_cov_option m' = gmm_cov_option m) by apply Fr.
    assert (He' : eps_ok m') by (unfold eps_ok; rewrite Eo; exact He).
    destruct (em_round_mixture X n m r (Ok tt) WX eq_refl HR Hk He HM E eq_refl) as (g & W & Hg & HW & St).
    assert (HR' : (0 < nrows X')%nat) by (unfold X'; now rewrite frame_nrows).
    destruct (em_round_mixture X' n m' r' (Ok tt) (frame_wf A b X) eq_refl HR' ltac:(congruence) He' HM' E' eq_refl) as (g' & W' & Hg' & HW' & St').
    destruct St as [(S1 & ->)|(m1 & S1 & (C1 & C2 & C3) & L1 & F1 & M1 & E1)]; [right; left; split; [exact U|]; split; [reflexivity|]; exists g; auto|].
    destruct St' as [(S1' & ->)|(m1' & S1' & (C1' & C2' & C3') & L1' & F1' & M1' & E1')]; [right; right; split; [exact U|]; split; [reflexivity|]; exists g'; auto|].
    left. apply (em_frame HR n m1 m1' r r'); auto; try congruence.
    - apply (fitted_frame W W'); auto; try congruence. intros i j Hi Hj. rewrite C1 in Hj. unfold X' in HW'. rewrite frame_nrows in HW'. rewrite HW, HW' by lia.
      apply (mixture_frame m m' g g' Fr HM HM' Hg Hg' Hk); auto. intros a Ha. now apply frame_entry.
    - unfold eps_ok. now rewrite C2.
    - rewrite L1, L1'. exact (lik_frame m m' g g' Fr HM HM' Hg Hg' Hk).
  Qed.

  (** Training. *)
  Lemma lockstep_bind {P Q P' Q'} (R1 : P -> P' -> Prop) (R2 : Q -> Q' -> Prop) p p' f f' : lockstep R1 p p' -> (forall x y, R1 x y -> lockstep R2 (f x) (f' y)) -> lockstep R2 (rnd_bind p f) (rnd_bind p' f').
  Proof.
    revert p'. induction p as [a|hi k IH|]; intros [a'|hi' k'|] H HF; cbn in *; auto; try contradiction.
    destruct H as [-> H]. split; auto.
  Qed.
  Lemma lockstep_same {P} (R1 : P -> P -> Prop) p : (forall a, outcome p (Some a) -> R1 a a) -> lockstep R1 p p.
  Proof.
    induction p as [a|hi k IH|]; intro H; cbn; auto.
    - apply H. constructor.
    - split; auto. intros i Hi. apply IH. intros a Ha. apply H. now apply (out_gen _ _ i).
  Qed.
  Lemma start_framed self rows : suits (gmm_cov_option self) d A -> (1 < nrows X)%nat -> NoDup rows -> Forall (fun i => (i < nrows X)%nat) rows -> length rows = gmm_comp_count self ->
    let m := set_start self (Mat (map (fun i => nth i (mrows X) []) rows) (mcols X)) (repeat (initialize_covariances self X (1 / INR (nrows X - 1))) (gmm_comp_count self)) in
    let m' := set_start self (Mat (map (fun i => nth i (mrows X') []) rows) (mcols X')) (repeat (initialize_covariances self X' (1 / INR (nrows X' - 1))) (gmm_comp_count self)) in
    framed m m' /\ starting X self m /\ starting X' self m'.
  Proof.
    intros Su HX ND Hr Lr. cbv zeta.
    assert (HX' : (1 < nrows X')%nat) by (unfold X'; now rewrite frame_nrows). assert (Hr' : Forall (fun i => (i < nrows X')%nat) rows) by (unfold X'; now rewrite frame_nrows).
    pose proof (starting_set self X rows HX ND Hr Lr) as S1. pose proof (starting_set self X' rows HX' ND Hr' Lr) as S2. split; [|split; assumption].
    destruct S1 as (_ & _ & _ & r1 & Cs1 & _ & _ & _ & _ & EC1 & LC1 & H1). destruct S2 as (_ & _ & _ & r2 & Cs2 & _ & _ & _ & _ & EC2 & LC2 & H2).
    cbn [set_start gmm_comp_count gmm_covars gmm_cov_option] in *. injection EC1 as <-. injection EC2 as <-.
    split; [reflexivity|]. split; [reflexivity|]. split; [reflexivity|]. eexists _, _, _, _. repeat (split; [reflexivity|]). cbn [gmm_comp_count set_start]. intros j Hj. split.
    - intros a Ha. unfold entry. cbn [mrows]. rewrite Forall_forall in Hr. assert (Hn : (nth j rows 0 < nrows X)%nat) by (apply Hr, nth_In; lia).
      rewrite !(nth_map _ rows j [] 0%nat) by lia. change (nth a (nth (nth j rows 0%nat) (mrows X') []) 0) with (entry X' (nth j rows 0%nat) a). unfold X'. rewrite frame_entry by auto. reflexivity.
    - intros p q Hp Hq. rewrite (H2 (nth j (repeat (initialize_covariances self X' (1 / INR (nrows X' - 1))) (gmm_comp_count self)) (Mat [] 0))) by (auto; apply nth_In; rewrite repeat_length; lia).
      rewrite (start_cov_frame d A b (gmm_cov_option self) X X' Su); auto; [|unfold X'; apply frame_nrows|intros i a Hi Ha; unfold X'; now apply frame_entry].
      apply conj_ext. intros c e Hc Hce. symmetry. apply H1; auto. apply nth_In. rewrite repeat_length. lia.
  Qed.
  Theorem train_frame self : well_started self -> suits (gmm_cov_option self) d A ->
    lockstep (fun p p' => snd p = Ok tt -> snd p' = Ok tt ->
      same_memberships lup d A b (fst p) (fst p') \/ (Rabs (D A) <> 1 /\ (stopped_at_start lup X self (fst p) \/ stopped_at_start lup X' self (fst p'))))
      (gmm_train lup self X) (gmm_train lup self X').
  Proof.
    intros Ws Su. assert (EN : nrows X' = nrows X) by (unfold X'; apply frame_nrows). unfold gmm_train. rewrite !EN. destruct (Nat.ltb_spec 1 (nrows X)) as [HX|HX]; cbn [negb].
    2:{ cbn [lockstep snd]. discriminate. }
    eapply (lockstep_bind (fun x y => x = y /\ NoDup x /\ Forall (fun i => (i < nrows X)%nat) x /\ length x = gmm_comp_count self)).
    - apply lockstep_same. intros rows H1. destruct (reservoir_sample_outcome _ _ _ H1) as [(_ & Q)|(Hle & r' & rest & Q & Lr & P)]; [discriminate|]. injection Q as <-.
      destruct (seq_rows_lt _ _ _ P) as (Hr & ND). auto.
    - intros rows ? (<- & ND & Hr & Lr).
      assert (Hr' : Forall (fun i => (i < nrows X')%nat) rows) by (unfold X'; now rewrite frame_nrows).
      rewrite (rows_opt_spec (mrows X) rows []) by exact Hr. rewrite (rows_opt_spec (mrows X') rows []) by exact Hr'. cbn [rnd_opt rnd_bind lockstep fst snd].
      destruct (start_framed self rows Su HX ND Hr Lr) as (Fr & S1 & S2). cbv zeta in Fr.
      pose proof (start_mixture self X rows Ws WX HX Lr Hr) as M1.
      assert (HX' : (1 < nrows X')%nat) by (unfold X'; now rewrite frame_nrows).
      pose proof (start_mixture self X' rows Ws (frame_wf A b X) HX' Lr Hr') as M2.
      rewrite EN in Fr, S2, M2. cbn [ndiv nonev nofnat NumR]. set (m := set_start self (Mat (map (fun i => nth i (mrows X) []) rows) (mcols X)) _) in *. 
      change (Mat (map (fun i => nth i (mrows X') []) rows) (mcols X)) with (Mat (map (fun i => nth i (mrows X') []) rows) (mcols X')).
      set (m' := set_start self (Mat (map (fun i => nth i (mrows X') []) rows) (mcols X')) _) in *.
      destruct (em_loop lup (gmm_max_iters self) m X) as [r o] eqn:E. destruct (em_loop lup (gmm_max_iters self) m' X') as [r' o'] eqn:E'. cbn [fst snd]. intros -> ->.
      assert (HR : (0 < nrows X)%nat) by lia. destruct Ws as (Hk & HDs & He).
      destruct (em_frame_start HR (gmm_max_iters self) m m' r r' Fr M1 M2 Hk He Su eq_refl E E') as [(F1 & N1 & N2 & Nk)|[(U & -> & g & Hg & Hl)|(U & -> & g & Hg & Hl)]].
      + left. now apply predict_frame.
      + right. split; [exact U|]. left. split; [exact S1|]. exists g. auto.
      + right. split; [exact U|]. right. split; [exact S2|]. exists g. auto.
  Qed.
  Theorem train_rigid self : well_started self -> suits (gmm_cov_option self) d A -> (forall p q, (p < d)%nat -> (q < d)%nat -> sumR d (fun c => A p c * A q c) = delta p q) ->
    lockstep (fun p p' => snd p = Ok tt -> snd p' = Ok tt -> same_memberships lup d A b (fst p) (fst p')) (gmm_train lup self X) (gmm_train lup self X').
  Proof.
    intros Ws Su HO.
    assert (U : Rabs (D A) = 1).
    { destruct HD as (H1 & H2 & H3 & H4).
      assert (D A * D A = 1).
      { rewrite <- (H3 A) at 2. rewrite <- H2. rewrite (H1 _ delta). 2:{ intros p q Hp Hq. unfold mprod. now apply HO. }
        rewrite H4. { clear. induction d as [|n IH]; cbn [prodR]; [reflexivity|]. rewrite IH. unfold delta. rewrite Nat.eqb_refl. ring. }
        intros p q Hpq _. unfold delta. destruct (Nat.eqb_spec p q); [lia|reflexivity]. }
      pose proof (Rabs_pos (D A)). assert (Rabs (D A) * Rabs (D A) = 1) by (rewrite <- Rabs_mult, H; apply Rabs_R1). nra. }
    pose proof (train_frame self Ws Su) as H. revert H. generalize (gmm_train lup self X) (gmm_train lup self X'). intros p. induction p as [a|hi k IH|]; intros [a'|hi' k'|]; cbn [lockstep]; auto.
    - intros H K K'. destruct (H K K') as [?|[N _]]; [assumption|contradiction].
    - intros [-> H]. split; auto.
  Qed.
  (** A frame in which the start already has the stored number. *)
  Lemma stops_at_start n m m' g r' : framed m m' -> mixture d m -> mixture d m' -> gmm_comp_count m <> O -> eps_ok m -> (0 < nrows X)%nat ->
    component_densities lup d m g -> gmm_log_lik m' = log_likelihood X m g - INR (nrows X) * ln (Rabs (D A)) -> em_loop lup (S n) m' X' = (r', Ok tt) ->
    r' = m' /\ exists g', component_densities lup d m' g' /\ Rabs (log_likelihood X' m' g' - gmm_log_lik m') < 1 / 10 ^ 15.
  Proof.
    intros Fr HM HM' Hk He HR Hg El E'. assert (Ek : gmm_comp_count m' = gmm_comp_count m) by apply Fr. assert (Eo : gmm_cov_option m' = gmm_cov_option m) by apply Fr.
    assert (He' : eps_ok m') by (unfold eps_ok; rewrite Eo; exact He). assert (HR' : (0 < nrows X')%nat) by (unfold X'; now rewrite frame_nrows).
    destruct (em_round_mixture X' n m' r' (Ok tt) (frame_wf A b X) eq_refl HR' ltac:(congruence) He' HM' E' eq_refl) as (g' & W' & Hg' & HW' & St').
    assert (K : Rabs (log_likelihood X' m' g' - gmm_log_lik m') < 1 / 10 ^ 15).
    { rewrite (lik_frame m m' g g' Fr HM HM' Hg Hg' Hk), El. replace (_ - _) with 0 by ring. rewrite Rabs_R0. apply Rdiv_lt_0_compat; [lra|apply pow_lt; lra]. }
    destruct St' as [(_ & ->)|(m1' & S1' & _)]; [|contradiction]. split; [reflexivity|]. exists g'. auto.
  Qed.
End Two.
