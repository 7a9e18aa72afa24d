(** Training and prediction of mixture models. *)
From Coq Require Import List Arith Lia Bool Reals Lra Permutation.
From Verif Require Import Base BaseLemmas Num NumFn Linalg LinalgR Spec_Calc CalcR Model_Rand Proof_Rand Proof_KMeans MatR
  Model_Optim Model_GP Model_NNet Proof_GP Proof_Toolkit Proof_NNet2 Proof_PCA Proof_Optim2 Model_GMM Spec_GMM Proof_GMM Proof_GMM2 Proof_GMM3.
Import ListNotations.
Local Open Scope R_scope.


Section Train.
  Variable lup : matrix R -> res (R * matrix R).
  Hypothesis lup_ok : lup_sound lup.

  Lemma mixture_log_lik d self l : mixture d self -> mixture d (set_log_lik self l).
  Proof. auto. Qed.
  Lemma em_loop_mixture X : mwf X -> (0 < nrows X)%nat -> forall m self self' r,
    gmm_comp_count self <> O -> eps_ok self -> mixture (mcols X) self -> em_loop lup m self X = (self', r) ->
    mixture (mcols X) self' /\ configured_like self' self /\
    ((gmm_mix_weights self' = gmm_mix_weights self /\ gmm_means self' = gmm_means self /\ gmm_covars self' = gmm_covars self) \/ mean_preserved X self').
  Proof.
    intros WX HR. induction m as [|m IH]; intros self self' r Hk He HM E; cbn [em_loop] in E.
    - injection E as <- <-. split; [exact HM|]. split; [repeat split|]. left. auto.
    - destruct (membership_weights lup self X) as [[W ll]|k|] eqn:EW.
      + destruct (nltb _ _).
        { injection E as <- <-. split; [exact HM|]. split; [repeat split|]. left. auto. }
        destruct (membership_distribution lup lup_ok (mcols X) self HM X W ll Hk WX eq_refl EW) as (WW & RW & CW & HW).
        set (self1 := set_log_lik self ll) in *.
        pose proof (mstep_mixture self1 X W (mcols X) WX eq_refl RW CW HW HR He) as HM1.
        destruct (IH (update_params self1 X W) self' r Hk He HM1 E) as (H1 & (H2a & H2b & H2c) & H3).
        split; [exact H1|]. split; [split; [exact H2a|split; [exact H2b|exact H2c]]|]. right. destruct H3 as [(E1 & E2 & _)|H3]; [|exact H3].
        rewrite (mstep_means_eq self1 X W (mcols X) eq_refl) in E2.
        eexists. split; [exact E2|]. intros a Ha. rewrite E1, H2a.
        exact (mstep_mean self1 X W (mcols X) eq_refl RW CW HW HR a Ha).
      + injection E as <- <-. split; [exact HM|]. split; [repeat split|]. left. auto.
      + injection E as <- <-. split; [exact HM|]. split; [repeat split|]. left. auto.
  Qed.

  Lemma seq_rows_lt (n : nat) (r rest : list nat) : Permutation (seq 0 n) (r ++ rest) -> Forall (fun i => (i < n)%nat) r /\ NoDup r.
  Proof.
    intros P. split.
    - apply Forall_forall. intros i Hi. assert (In i (seq 0 n)) as Q.
      { apply (Permutation_in _ (Permutation_sym P)). apply in_or_app. auto. }
      apply in_seq in Q. lia.
    - assert (ND : NoDup (r ++ rest)) by (apply (Permutation_NoDup P); apply seq_NoDup). clear P. induction r as [|x r IH]; [constructor|].
      cbn in ND. inversion ND; subst. constructor; [|auto]. intros Hx. apply H1. apply in_or_app. auto.
  Qed.
  Lemma outcome_bind_some {A B} (p : Rnd A) (f : A -> Rnd B) b : outcome (rnd_bind p f) (Some b) -> exists a, outcome p (Some a) /\ outcome (f a) (Some b).
  Proof.
    induction p as [a|hi k IH|]; intros H; cbn in H.
    - exists a. split; [constructor|exact H].
    - inversion H as [|? ? i ? Hi Hk| |]; subst. destruct (IH i Hk) as (a & H1 & H2). exists a. split; [econstructor; eauto|exact H2].
    - inversion H.
  Qed.

  (** The state from which the loop starts. *)
  Lemma start_mixture self X r : well_started self -> mwf X -> (1 < nrows X)%nat -> length r = gmm_comp_count self -> Forall (fun i => (i < nrows X)%nat) r ->
    mixture (mcols X) (set_start self (Mat (map (fun i => nth i (mrows X) []) r) (mcols X))
      (repeat (initialize_covariances self X (1 / INR (nrows X - 1))) (gmm_comp_count self))).
  Proof.
    intros (Hk & HD & He) WX HX Lr Hr. split; [exact HD|]. split.
    - eexists. split; [reflexivity|]. split; [|split; [unfold nrows; cbn; rewrite map_length; exact Lr|reflexivity]].
      apply Forall_forall. intros x Hx. cbn [mrows mcols] in *. apply in_map_iff in Hx. destruct Hx as (i & <- & Hi).
      rewrite Forall_forall in Hr. apply mwf_row; auto.
    - eexists. split; [reflexivity|]. cbn [gmm_comp_count set_start]. split; [apply repeat_length|]. apply Forall_forall. intros C HC. apply repeat_spec in HC. subst C.
      apply initial_covariance; auto. left. apply Rdiv_lt_0_compat; [lra|]. apply lt_0_INR. lia.
  Qed.
  Lemma train_shape self X self' r : mwf X -> outcome (gmm_train lup self X) (Some (self', r)) ->
    (~ (1 < nrows X)%nat /\ self' = self /\ r = Err InvalidData) \/
    ((1 < nrows X)%nat /\ (gmm_comp_count self <= nrows X)%nat /\ exists rows, NoDup rows /\ Forall (fun i => (i < nrows X)%nat) rows /\ length rows = gmm_comp_count self /\
       em_loop lup (gmm_max_iters self) (set_start self (Mat (map (fun i => nth i (mrows X) []) rows) (mcols X))
         (repeat (initialize_covariances self X (1 / INR (nrows X - 1))) (gmm_comp_count self))) X = (self', r)).
  Proof.
    intros WX H. unfold gmm_train in H. destruct (Nat.ltb_spec 1 (nrows X)) as [HX|HX]; cbn [negb] in H.
    - right. split; [exact HX|]. destruct (outcome_bind_some _ _ _ H) as (rows & H1 & H2).
      destruct (reservoir_sample_outcome _ _ _ H1) as [(_ & Q)|(Hle & r' & rest & Q & Lr & P)]; [discriminate|]. injection Q as <-.
      rewrite seq_length in Hle. split; [exact Hle|]. destruct (seq_rows_lt _ _ _ P) as (Hr & ND).
      exists rows. split; [exact ND|]. split; [exact Hr|]. split; [exact Lr|].
      rewrite (rows_opt_spec (mrows X) rows []) in H2 by exact Hr. cbn [rnd_opt rnd_bind] in H2. inversion H2. reflexivity.
    - left. inversion H; subst. split; [lia|]. auto.
  Qed.
  Lemma starting_set self X rows : (1 < nrows X)%nat -> NoDup rows -> Forall (fun i => (i < nrows X)%nat) rows -> length rows = gmm_comp_count self ->
    starting X self (set_start self (Mat (map (fun i => nth i (mrows X) []) rows) (mcols X))
       (repeat (initialize_covariances self X (1 / INR (nrows X - 1))) (gmm_comp_count self))).
  Proof.
    intros HX ND Hr Lr. assert (HN : 0 < INR (nrows X - 1)) by (apply lt_0_INR; lia).
    split; [repeat split|]. split; [reflexivity|]. split; [reflexivity|]. exists rows. eexists. split; [reflexivity|].
    split; [exact Lr|]. split; [exact ND|]. split; [exact Hr|]. split; [reflexivity|]. split; [cbn [gmm_comp_count set_start]; apply repeat_length|].
    intros C HC a b Ha Hb. apply repeat_spec in HC. subst C.
    assert (HM : forall a, (a < mcols X)%nat -> nth a (col_mean X) 0 = data_mean X a).
    { intros l Hl. unfold col_mean. rewrite nth_map_seq by exact Hl. cbn [ndiv nofnat NumR]. rewrite vsum_R, rsum_nth, col_length. unfold data_mean. f_equal.
      apply sumR_ext. intros i Hi. apply col_nth. exact Hi. }
    assert (HS : forall a b, (a < mcols X)%nat -> (b < mcols X)%nat -> scatter X a b = data_cov X a b * INR (nrows X - 1)).
    { intros l m Hl Hm. unfold scatter, data_cov. unfold Rdiv. rewrite Rmult_assoc, Rinv_l, Rmult_1_r by lra. apply sumR_ext. intros i Hi. rewrite !HM by auto. reflexivity. }
    destruct (initial_cov_entry self X (1 / INR (nrows X - 1)) a b Ha Hb) as (_ & ->). unfold start_cov. cbn [gmm_cov_option set_start].
    destruct (gmm_cov_option self) as [|eps|].
    - rewrite HS by auto. field. lra.
    - rewrite HS by auto. field. lra.
    - destruct (Nat.eqb_spec a b) as [->|]; [|unfold Rdiv; ring]. replace (1 / INR (nrows X - 1)) with (/ INR (nrows X - 1)) by (field; lra). rewrite sqrt_inv. unfold Rdiv at 1. f_equal.
      unfold col_var. rewrite nth_map_seq by auto. cbv zeta. cbn [ndiv nofnat nmul nsub NumR].
      pose proof (HM b Hb) as HM'. unfold col_mean in HM'. rewrite nth_map_seq in HM' by auto. cbn [ndiv nofnat NumR] in HM'. rewrite HM'.
      rewrite vsum_R, rsum_nth, map_length, col_length. unfold data_cov. f_equal. apply sumR_ext. intros i Hi.
      rewrite (nth_map _ _ _ _ 0) by (rewrite col_length; exact Hi). rewrite col_nth by exact Hi. reflexivity.
  Qed.
  Theorem train_start self X self' r : mwf X -> outcome (gmm_train lup self X) (Some (self', r)) ->
    (~ (1 < nrows X)%nat /\ self' = self /\ r = Err InvalidData) \/
    ((1 < nrows X)%nat /\ (gmm_comp_count self <= nrows X)%nat /\ exists self0, starting X self self0 /\ em_loop lup (gmm_max_iters self) self0 X = (self', r)).
  Proof.
    intros WX H. destruct (train_shape self X self' r WX H) as [?|(HX & Hle & rows & ND & Hr & Lr & E)]; [left; auto|right].
    split; [exact HX|]. split; [exact Hle|]. eexists. split; [|exact E]. apply starting_set; auto.
  Qed.
  Theorem train_mixture self X self' r : well_started self -> mwf X -> outcome (gmm_train lup self X) (Some (self', r)) ->
    (~ (1 < nrows X)%nat /\ self' = self /\ r = Err InvalidData) \/
    ((1 < nrows X)%nat /\ mixture (mcols X) self' /\ configured_like self' self /\ (initial_means X self self' \/ mean_preserved X self')).
  Proof.
    intros HS WX H. destruct (train_shape self X self' r WX H) as [?|(HX & Hle & rows & ND & Hr & Lr & E)]; [left; auto|right].
    split; [exact HX|]. pose proof (start_mixture self X rows HS WX HX Lr Hr) as HM. destruct HS as (Hk & HD & He).
    assert (HR : (0 < nrows X)%nat) by lia.
    destruct ((fun a b => em_loop_mixture X WX HR _ _ _ _ a b HM E) Hk He) as (H1 & H2 & H3). split; [exact H1|]. split; [exact H2|].
    destruct H3 as [(E1 & E2 & E3)|H3]; [left|right; exact H3]. split; [exact E1|]. eexists. exists rows. split; [exact E2|]. split; [exact ND|]. split; [exact Hr|]. reflexivity.
  Qed.
  Lemma mixture_well_started d self : gmm_comp_count self <> O -> mixture d self -> eps_ok self -> well_started self.
  Proof. intros Hk (H & _) He. split; [exact Hk|]. split; [exact H|exact He]. Qed.
  Lemma train_well_started self X self' r : well_started self -> mwf X -> outcome (gmm_train lup self X) (Some (self', r)) -> well_started self'.
  Proof.
    intros HS WX H. destruct (train_mixture self X self' r HS WX H) as [(_ & -> & _)|(_ & HM & (E1 & E2 & E3) & _)]; [exact HS|].
    destruct HS as (Hk & HD & He). apply (mixture_well_started (mcols X)); [congruence|exact HM|]. unfold eps_ok. rewrite E2. exact He.
  Qed.
  Theorem predict_distribution d self X P : gmm_comp_count self <> O -> mixture d self -> mwf X -> mcols X = d -> gmm_predict lup self X = Ok P ->
    mwf P /\ nrows P = nrows X /\ mcols P = gmm_comp_count self /\
    forall i, (i < nrows X)%nat -> (forall j, (j < gmm_comp_count self)%nat -> 0 < entry P i j) /\ sumR (gmm_comp_count self) (entry P i) = 1.
  Proof.
    intros Hk HM WX EX H. unfold gmm_predict in H. destruct (gmm_means self), (gmm_covars self); try discriminate.
    destruct (membership_weights lup self X) as [[W ll]| |] eqn:EW; try discriminate. cbn in H. injection H as <-.
    apply (membership_distribution lup lup_ok d self HM X W ll Hk WX EX EW).
  Qed.
  Lemma estep_posterior d self X W ll : mixture d self -> mwf X -> mcols X = d -> membership_weights lup self X = Ok (W, ll) ->
    exists g, component_densities lup d self g /\
      (forall i j, (i < nrows X)%nat -> (j < gmm_comp_count self)%nat -> entry W i j = bayes (gmm_comp_count self) (gmm_mix_weights self) g (entry X i) j) /\
      ll = sumR (nrows X) (fun i => ln (mixture_density (gmm_comp_count self) (gmm_mix_weights self) g (entry X i))).
  Proof.
    intros HM WX EX EW.
    destruct (membership_value lup lup_ok d self HM X W ll WX EX EW) as (M & Cs & dis & EM & EC & ED & _ & _ & _ & HE & HL).
    exists (fun j x => gauss d (fst (nth j dis (0, Mat [] 0))) (snd (nth j dis (0, Mat [] 0))) x (entry M j)).
    split; [|split; [exact HE|exact HL]]. exists M, Cs. split; [exact EM|]. split; [exact EC|].
    intros j Hj. exists (fst (nth j dis (0, Mat [] 0))), (snd (nth j dis (0, Mat [] 0))). split; [|reflexivity].
    rewrite <- surjective_pairing. destruct HM as (_ & _ & (Cs' & EC' & LC & _)). rewrite EC in EC'. injection EC' as <-.
    apply (rmap_nth lup Cs dis); [exact ED|lia].
  Qed.
  Theorem predict_posterior d self X P : mixture d self -> mwf X -> mcols X = d -> gmm_predict lup self X = Ok P ->
    exists g, component_densities lup d self g /\
      forall i j, (i < nrows X)%nat -> (j < gmm_comp_count self)%nat -> entry P i j = bayes (gmm_comp_count self) (gmm_mix_weights self) g (entry X i) j.
  Proof.
    intros HM WX EX H. unfold gmm_predict in H.
    destruct (membership_weights lup self X) as [[W ll]| |] eqn:EW; [|destruct (gmm_means self), (gmm_covars self); discriminate|destruct (gmm_means self), (gmm_covars self); discriminate].
    destruct (estep_posterior d self X W ll HM WX EX EW) as (g & Hg & HE & _). exists g. split; [exact Hg|].
    destruct (gmm_means self), (gmm_covars self); try discriminate. cbn in H. injection H as <-. exact HE.
  Qed.
  (** One round of the loop. *)
  Theorem em_round m self X self' r : gmm_comp_count self <> O -> eps_ok self -> mixture (mcols X) self -> mwf X -> (0 < nrows X)%nat ->
    em_loop lup (S m) self X = (self', r) -> r = Ok tt ->
    exists g W self1, component_densities lup (mcols X) self g /\
      (forall i j, (i < nrows X)%nat -> (j < gmm_comp_count self)%nat -> W i j = bayes (gmm_comp_count self) (gmm_mix_weights self) g (entry X i) j) /\
      let ll := sumR (nrows X) (fun i => ln (mixture_density (gmm_comp_count self) (gmm_mix_weights self) g (entry X i))) in
      (Rabs (ll - gmm_log_lik self) < 1 / 10 ^ 15 /\ self' = self) \/
      (~ Rabs (ll - gmm_log_lik self) < 1 / 10 ^ 15 /\ configured_like self1 self /\ gmm_log_lik self1 = ll /\ fitted X W self1 /\ em_loop lup m self1 X = (self', r)).
  Proof.
    intros Hk He HM WX HR E Er. cbn [em_loop] in E. destruct (membership_weights lup self X) as [[W ll]|k|] eqn:EW; [|injection E as <- <-; discriminate|injection E as <- <-; discriminate].
    destruct (estep_posterior (mcols X) self X W ll HM WX eq_refl EW) as (g & Hg & HE & HL).
    destruct (membership_distribution lup lup_ok (mcols X) self HM X W ll Hk WX eq_refl EW) as (WW & RW & CW & HW).
    exists g, (entry W), (update_params (set_log_lik self ll) X W). split; [exact Hg|]. split; [exact HE|]. cbv zeta. rewrite <- HL.
    rewrite pow10_R in E. cbn [nltb nabs nsub ndiv nonev NumR] in E. destruct (Rlt_dec _ _) as [Hl|Hl].
    { left. injection E as <- <-. split; [exact Hl|reflexivity]. }
    right. split; [exact Hl|]. split; [repeat split|]. split; [reflexivity|]. split; [|exact E].
    destruct (mstep_weights (set_log_lik self ll) X W RW CW) as (_ & H1).
    destruct (mstep_means (set_log_lik self ll) X W (mcols X) eq_refl RW CW HR) as (_ & _ & _ & H2).
    destruct (mstep_covars (set_log_lik self ll) X W (mcols X) WX eq_refl RW CW HW HR) as (Cs & EC & _ & H3).
    split; [exact H1|]. eexists. exists Cs. split; [exact (mstep_means_eq (set_log_lik self ll) X W (mcols X) eq_refl)|]. split; [exact EC|].
    intros j a Hj Ha. split; [apply H2; auto|]. intros b Hb. apply (H3 j Hj); auto.
  Qed.
  Lemma predict_untrained (F : Type) (N : Num F) (NF : NumFn F) lup' (self : GMM F) X : gmm_means self = None -> gmm_predict lup' self X = Err UntrainedModel.
  Proof. intros E. unfold gmm_predict. rewrite E. reflexivity. Qed.

  (** ** Singular covariances *)
  Lemma no_inverse d C u : covariance d C -> (exists k, (k < d)%nat /\ u k <> 0) -> (forall a, (a < d)%nat -> sumR d (fun b => entry C a b * u b) = 0) ->
    forall p, lup C <> Ok p.
  Proof.
    intros HC (k & Hk & Hu) HZ (det, Ci) E. destruct (lup_ok C d det Ci HC E) as (_ & _ & _ & _ & HI). destruct HC as (_ & _ & _ & HS & _).
    apply Hu.
    transitivity (sumR d (fun a => u a * sumR d (fun l => entry C a l * entry Ci l k))).
    - rewrite (sumR_ext d _ (fun a => if (k =? a)%nat then u a else 0)).
      + symmetry. apply sumR_pick. exact Hk.
      + intros a Ha. rewrite HI by auto. rewrite (Nat.eqb_sym a k). destruct (k =? a)%nat; ring.
    - rewrite (sumR_ext d _ (fun a => sumR d (fun l => (entry C l a * u a) * entry Ci l k))).
      + rewrite sumR_exch. apply sumR_zero. intros l Hl. rewrite sumR_scal_r, HZ by auto. ring.
      + intros a Ha. rewrite <- sumR_scal. apply sumR_ext. intros l Hl. rewrite (HS a l) by auto. ring.
  Qed.
  Lemma em_fails m self X C rest : gmm_covars self = Some (C :: rest) -> (forall p, lup C <> Ok p) -> (0 < m)%nat ->
    forall self' r, em_loop lup m self X = (self', r) -> r <> Ok tt.
  Proof.
    intros E HC Hm self' r H. destruct m as [|m]; [lia|]. cbn [em_loop] in H. unfold membership_weights in H. rewrite E in H. cbn [rmap] in H.
    destruct (lup C) as [p|k|] eqn:EL; [destruct (HC p eq_refl)| |]; cbn in H; injection H as <- <-; discriminate.
  Qed.
  Lemma mean_const X a c : (0 < nrows X)%nat -> (a < mcols X)%nat -> (forall i, (i < nrows X)%nat -> entry X i a = c) -> nth a (col_mean X) 0 = c.
  Proof.
    intros HR Ha Hc. unfold col_mean. rewrite nth_map_seq by exact Ha. cbn [ndiv nofnat NumR]. rewrite vsum_R, rsum_nth, col_length.
    rewrite (sumR_ext _ _ (fun _ => c)). { rewrite sumR_const. field. apply not_0_INR. lia. }
    intros i Hi. rewrite col_nth by exact Hi. auto.
  Qed.
  (** Training fails when the initial covariance matrix has a non-zero vector in its kernel. *)
  Lemma singular_fails self X u self' r : well_started self -> mwf X -> (exists k, (k < mcols X)%nat /\ u k <> 0) ->
    ((1 < nrows X)%nat -> forall a, (a < mcols X)%nat -> sumR (mcols X) (fun b => entry (initialize_covariances self X (1 / INR (nrows X - 1))) a b * u b) = 0) ->
    (0 < gmm_max_iters self)%nat -> outcome (gmm_train lup self X) (Some (self', r)) -> r <> Ok tt.
  Proof.
    intros HS WX Hu HZ Hit H. destruct (train_shape self X self' r WX H) as [(_ & _ & ->)|(HX & Hle & rows & ND & Hr & Lr & E)]; [discriminate|].
    destruct HS as (Hk & HD & He). destruct (gmm_comp_count self) as [|k] eqn:EK; [contradiction|].
    refine ((fun H1 H2 => em_fails _ _ X (initialize_covariances self X (1 / INR (nrows X - 1))) (repeat (initialize_covariances self X (1 / INR (nrows X - 1))) k) H1 H2 Hit _ _ E) eq_refl _).
    apply (no_inverse (mcols X) _ u); [|exact Hu|exact (HZ HX)].
    apply initial_covariance; auto. left. apply Rdiv_lt_0_compat; [lra|]. apply lt_0_INR. lia.
  Qed.
  Theorem constant_column_fails self X a self' r : well_started self -> mwf X -> constant_column X a ->
    gmm_cov_option self = CovFull \/ gmm_cov_option self = CovDiagonal -> (0 < gmm_max_iters self)%nat ->
    outcome (gmm_train lup self X) (Some (self', r)) -> r <> Ok tt.
  Proof.
    intros HS WX (Ha & c & Hc) Hopt Hit H.
    refine (singular_fails self X (fun b => if (a =? b)%nat then 1 else 0) self' r HS WX _ _ Hit H).
    { exists a. split; [exact Ha|]. rewrite Nat.eqb_refl. lra. }
    intros HX b Hb. set (reg := 1 / INR (nrows X - 1)).
    assert (HZ : entry (initialize_covariances self X reg) b a = 0).
    { destruct (initial_cov_entry self X reg b a Hb Ha) as (_ & ->).
      assert (HM := mean_const X a c ltac:(lia) Ha Hc). destruct Hopt as [-> | ->].
      - unfold scatter. rewrite sumR_zero; [ring|]. intros i Hi. rewrite HM, Hc by auto. ring.
      - destruct (Nat.eqb_spec b a) as [->|]; [|ring]. unfold col_var. rewrite nth_map_seq by auto. cbv zeta. cbn [ndiv nofnat nmul nsub NumR].
        assert (HM' := HM). unfold col_mean in HM'. rewrite nth_map_seq in HM' by auto. cbn [ndiv nofnat NumR] in HM'. rewrite HM'.
        rewrite vsum_R, rsum_nth, map_length, col_length. rewrite sumR_zero; [unfold Rdiv; ring|]. intros i Hi.
        rewrite (nth_map _ _ _ _ 0) by (rewrite col_length; exact Hi). rewrite col_nth by exact Hi. rewrite Hc by auto. ring. }
    rewrite (sumR_ext _ _ (fun l => if (a =? l)%nat then entry (initialize_covariances self X reg) b l else 0)).
    - rewrite (sumR_pick (mcols X) (fun l => entry (initialize_covariances self X reg) b l)) by auto. exact HZ.
    - intros l _. destruct (a =? l)%nat; ring.
  Qed.

  (** Fewer equations than unknowns. *)
  Lemma sumR_skip d p (f : nat -> R) : (p < S d)%nat -> sumR (S d) f = f p + sumR d (fun k => f (if (k <? p)%nat then k else S k)).
  Proof.
    revert p. induction d as [|d IH]; intros p Hp.
    - replace p with O by lia. cbn. ring.
    - destruct (Nat.eq_dec p (S d)) as [->|Hne].
      + cbn [sumR]. rewrite (sumR_ext d (fun k => f (if (k <? S d)%nat then k else S k)) f).
        * replace (d <? S d)%nat with true by (symmetry; apply Nat.ltb_lt; lia). ring.
        * intros k Hk. replace (k <? S d)%nat with true by (symmetry; apply Nat.ltb_lt; lia). reflexivity.
      + change (sumR (S (S d)) f) with (sumR (S d) f + f (S d)). rewrite (IH p) by lia. cbn [sumR].
        replace (d <? p)%nat with false by (symmetry; apply Nat.ltb_ge; lia). ring.
  Qed.
  Lemma underdetermined : forall m d (A : nat -> nat -> R), (m < d)%nat ->
    exists u, (exists k, (k < d)%nat /\ u k <> 0) /\ forall i, (i < m)%nat -> sumR d (fun k => A i k * u k) = 0.
  Proof.
    induction m as [|m IH]; intros d A Hd.
    - exists (fun _ => 1). split; [exists O; split; [lia|lra]|]. intros i Hi. lia.
    - assert (D : (exists p, (p < d)%nat /\ A m p <> 0) \/ forall p, (p < d)%nat -> A m p = 0).
      { clear. induction d as [|d [(p & Hp & H)|H]].
        - right. intros p Hp. lia.
        - left. exists p. split; [lia|exact H].
        - destruct (Req_dec (A m d) 0) as [E|E].
          + right. intros p Hp. destruct (Nat.eq_dec p d) as [->|]; [exact E|]. apply H. lia.
          + left. exists d. split; [lia|exact E]. }
      destruct D as [(p & Hp & HA)|HA].
      + destruct d as [|d]; [lia|].
        pose (sh := fun k => if (k <? p)%nat then k else S k).
        destruct (IH d (fun i k => A i (sh k) - A i p / A m p * A m (sh k)) ltac:(lia)) as (v & (k & Hk & Hv) & HE).
        pose (s := sumR d (fun k => A m (sh k) * v k)).
        pose (u := fun l => if (l =? p)%nat then - s / A m p else if (l <? p)%nat then v l else v (pred l)).
        assert (Eu : forall k, u (sh k) = v k).
        { intros l. unfold u, sh. destruct (Nat.ltb_spec l p).
          - replace (l =? p)%nat with false by (symmetry; apply Nat.eqb_neq; lia). replace (l <? p)%nat with true by (symmetry; apply Nat.ltb_lt; lia). reflexivity.
          - replace (S l =? p)%nat with false by (symmetry; apply Nat.eqb_neq; lia). replace (S l <? p)%nat with false by (symmetry; apply Nat.ltb_ge; lia). reflexivity. }
        assert (Ep : u p = - s / A m p) by (unfold u; rewrite Nat.eqb_refl; reflexivity).
        exists u. split.
        * exists (sh k). split; [unfold sh; destruct (k <? p)%nat; lia|]. rewrite Eu. exact Hv.
        * intros i Hi. rewrite (sumR_skip d p) by exact Hp. rewrite (sumR_ext d _ (fun k => A i (sh k) * v k)).
          2:{ intros l _. fold (sh l). rewrite Eu. reflexivity. }
          rewrite Ep. destruct (Nat.eq_dec i m) as [->|Hne].
          -- fold s. field. exact HA.
          -- specialize (HE i ltac:(lia)). cbv beta in HE.
             rewrite (sumR_ext d _ (fun k => A i (sh k) * v k + (- (A i p / A m p)) * (A m (sh k) * v k))) in HE by (intros; ring).
             rewrite sumR_plus, sumR_scal in HE. fold s in HE. rewrite <- HE. field. exact HA.
      + destruct (IH d A ltac:(lia)) as (u & Hu & HE). exists u. split; [exact Hu|]. intros i Hi. destruct (Nat.eq_dec i m) as [->|Hne]; [|apply HE; lia].
        apply sumR_zero. intros l Hl. rewrite HA by auto. ring.
  Qed.
  Theorem few_rows_fail self X self' r : well_started self -> mwf X -> (nrows X <= mcols X)%nat -> (0 < mcols X)%nat ->
    gmm_cov_option self = CovFull -> (0 < gmm_max_iters self)%nat ->
    outcome (gmm_train lup self X) (Some (self', r)) -> r <> Ok tt.
  Proof.
    intros HS WX HL H0 Hopt Hit H. destruct (le_lt_dec (nrows X) 0) as [HN|HN].
    { destruct (train_shape self X self' r WX H) as [(_ & _ & ->)|(HX & _)]; [discriminate|lia]. }
    destruct (underdetermined (nrows X - 1) (mcols X) (fun i a => entry X i a - nth a (col_mean X) 0) ltac:(lia)) as (u & Hu & HE).
    assert (HA : forall i, (i < nrows X)%nat -> sumR (mcols X) (fun k => (entry X i k - nth k (col_mean X) 0) * u k) = 0).
    { intros i Hi. destruct (Nat.eq_dec i (nrows X - 1)) as [->|Hne]; [|apply HE; lia].
      assert (T : sumR (nrows X) (fun i => sumR (mcols X) (fun k => (entry X i k - nth k (col_mean X) 0) * u k)) = 0).
      { rewrite sumR_exch. apply sumR_zero. intros k Hk. rewrite sumR_scal_r.
        rewrite (sumR_ext (nrows X) _ (fun i => entry X i k + - nth k (col_mean X) 0)) by (intros; ring).
        rewrite sumR_plus, sumR_const. unfold col_mean. rewrite nth_map_seq by exact Hk. cbn [ndiv nofnat NumR].
        rewrite vsum_R, rsum_nth, col_length. rewrite (sumR_ext (nrows X) (fun i => nth i (col X k) 0) (fun i => entry X i k)).
        - field. apply not_0_INR. lia.
        - intros j Hj. apply col_nth. exact Hj. }
      replace (nrows X) with (S (nrows X - 1)) in T at 1 by lia. cbn [sumR] in T. rewrite sumR_zero in T by (intros; apply HE; auto). lra. }
    refine (singular_fails self X u self' r HS WX Hu _ Hit H). intros HX a Ha.
    rewrite (sumR_ext _ _ (fun b => sumR (nrows X) (fun i => ((entry X i a - nth a (col_mean X) 0) * (1 / INR (nrows X - 1))) * ((entry X i b - nth b (col_mean X) 0) * u b)))).
    - rewrite sumR_exch. apply sumR_zero. intros i Hi. rewrite sumR_scal, HA by exact Hi. ring.
    - intros b Hb. destruct (initial_cov_entry self X (1 / INR (nrows X - 1)) a b Ha Hb) as (_ & ->). rewrite Hopt. unfold scatter.
      rewrite <- !sumR_scal_r. apply sumR_ext. intros i _. ring.
  Qed.
End Train.

(** ** Constructors *)
Lemma vsum_sumR (w : list R) : vsum w = sumR (length w) (fun j => nth j w 0).
Proof. rewrite vsum_R. apply rsum_nth. Qed.
Theorem new_well_started k : k <> O -> well_started (gmm_new k).
Proof.
  intros Hk. split; [exact Hk|]. split; [|exact I]. assert (HN : 0 < INR k) by (apply lt_0_INR; lia).
  assert (E : forall j, (j < k)%nat -> nth j (gmm_mix_weights (gmm_new (F := R) k)) 0 = / INR k).
  { intros j Hj. cbn [gmm_new gmm_mix_weights]. rewrite (nth_map _ _ _ _ 0) by (rewrite repeat_length; exact Hj). rewrite nth_rep by exact Hj.
    cbn [ndiv nonev nofnat NumR]. field. lra. }
  split; [cbn; rewrite map_length, repeat_length; reflexivity|]. split.
  - intros j Hj. rewrite E by auto. apply Rinv_0_lt_compat. exact HN.
  - rewrite (sumR_ext _ _ (fun _ => / INR k)) by auto. rewrite sumR_const. change (gmm_comp_count (gmm_new (F := R) k)) with k. field. lra.
Qed.
Theorem with_weights_errors k (w : list R) : (length w <> k \/ exists j, (j < length w)%nat /\ nth j w 0 < 0) <->
  gmm_with_weights k w = Err InvalidParameters.
Proof.
  unfold gmm_with_weights. destruct (Nat.eqb_spec (length w) k) as [E|E]; cbn [negb].
  - destruct (existsb _ w) eqn:EX.
    + split; [reflexivity|]. intros _. right. apply existsb_exists in EX. destruct EX as (x & Hx & Hl). destruct (In_nth _ _ 0 Hx) as (j & Hj & <-).
      exists j. split; [exact Hj|]. cbn [nltb NumR nzero] in Hl. destruct (Rlt_dec (nth j w 0) 0); [assumption|discriminate].
    + split; [|discriminate]. intros [H|(j & Hj & Hl)]; [contradiction|]. exfalso.
      assert (T : existsb (fun x => (x <? nzero)%num) w = true); [|congruence].
      apply existsb_exists. exists (nth j w 0). split; [apply nth_In; exact Hj|]. cbn [nltb NumR nzero]. destruct (Rlt_dec (nth j w 0) 0); [reflexivity|contradiction].
  - split; [reflexivity|]. intros _. left. exact E.
Qed.
Theorem with_weights_ok k (w : list R) : length w = k -> (forall j, (j < k)%nat -> 0 <= nth j w 0) -> 0 < sumR k (fun j => nth j w 0) ->
  exists m, gmm_with_weights k w = Ok m /\ gmm_comp_count m = k /\ gmm_means m = None /\ length (gmm_mix_weights m) = k /\
    (forall j, (j < k)%nat -> nth j (gmm_mix_weights m) 0 = nth j w 0 / sumR k (fun j => nth j w 0) /\ 0 <= nth j (gmm_mix_weights m) 0) /\
    sumR k (fun j => nth j (gmm_mix_weights m) 0) = 1 /\
    ((forall j, (j < k)%nat -> 0 < nth j w 0) -> well_started m).
Proof.
  intros L Hw Hs. unfold gmm_with_weights. rewrite L, Nat.eqb_refl. cbn [negb].
  destruct (existsb (fun x => (x <? nzero)%num) w) eqn:EX.
  { apply existsb_exists in EX. destruct EX as (x & Hx & Hl). destruct (In_nth _ _ 0 Hx) as (j & Hj & <-).
    cbn [nltb NumR nzero] in Hl. destruct (Rlt_dec (nth j w 0) 0); [|discriminate]. specialize (Hw j ltac:(lia)). lra. }
  eexists. split; [reflexivity|]. cbn [gmm_comp_count gmm_means gmm_mix_weights gmm_cov_option]. split; [reflexivity|]. split; [reflexivity|].
  assert (ES : vsum w = sumR k (fun j => nth j w 0)) by (rewrite vsum_sumR, L; reflexivity).
  assert (E : forall j, (j < k)%nat -> nth j (map (fun x => (x / vsum w)%num) w) 0 = nth j w 0 / sumR k (fun j => nth j w 0)).
  { intros j Hj. rewrite (nth_map _ _ _ _ 0) by lia. rewrite ES. reflexivity. }
  assert (E1 : sumR k (fun j => nth j (map (fun x => (x / vsum w)%num) w) 0) = 1).
  { rewrite (sumR_ext _ _ (fun j => nth j w 0 * / sumR k (fun j => nth j w 0))) by (intros; apply E; auto). rewrite sumR_scal_r. field. lra. }
  split; [rewrite map_length; exact L|]. split; [|split; [exact E1|]].
  - intros j Hj. split; [apply E; auto|]. rewrite E by auto. apply Rmult_le_pos; auto. left. apply Rinv_0_lt_compat. exact Hs.
  - intros Hp. split; [cbn [gmm_comp_count]; intros ->; cbn in Hs; lra|]. split; [|exact I]. split; [cbn; rewrite map_length; exact L|]. split; [|exact E1].
    intros j Hj. cbn [gmm_mix_weights]. rewrite E by auto. apply Rdiv_lt_0_compat; auto.
Qed.
