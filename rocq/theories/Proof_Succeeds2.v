(** Lemmas for [Props_Succeeds]: Gaussian mixtures. *)
From Coq Require Import List Arith Reals Lra Lia Bool Permutation.
From Verif Require Import Base BaseLemmas Num NumFn Linalg LinalgR Spec_Calc CalcR Proof_KMeans Proof_Toolkit MatR Model_Rand Proof_Rand Model_Regression Spec_Regression Proof_Regression
  Model_GMM Spec_GMM Proof_GMM Proof_GMM2 Proof_GMM3 Proof_GMM4 Spec_Succeeds Proof_EM Proof_Inverse Proof_Oracles Proof_NNet2 Proof_Succeeds.
Import ListNotations.
Local Open Scope R_scope.

(** Scatter matrices around any point. *)
Definition scat (n : nat) (w : nat -> R) (X : nat -> nat -> R) (m : nat -> R) (a b : nat) : R := sumR n (fun i => w i * ((X i a - m a) * (X i b - m b))).
Lemma affine_sum q (x : list R) d : length q = S d -> length x = d -> affine q x = nth 0 q 0 + sumR d (fun a => nth (S a) q 0 * nth a x 0).
Proof.
  intros _ Lx. unfold affine. now rewrite Lx.
Qed.
Lemma spans_centered X (m : nat -> R) : mwf X -> spans X -> forall u, (forall i, (i < nrows X)%nat -> sumR (mcols X) (fun a => (entry X i a - m a) * u a) = 0) -> forall a, (a < mcols X)%nat -> u a = 0.
Proof.
  intros W HS u Hu a Ha. set (d := mcols X). set (q := - sumR d (fun a => m a * u a) :: map u (seq 0 d)).
  assert (Lq : length q = S d) by (unfold q; cbn; now rewrite map_length, seq_length).
  assert (Nq : forall a, (a < d)%nat -> nth (S a) q 0 = u a) by (intros b Hb; unfold q; cbn [nth]; now rewrite nth_map_seq).
  rewrite <- Nq by auto. rewrite (HS q Lq); [apply nth_repeat|]. intros x Hx. destruct (In_nth _ _ [] Hx) as (i & Hi & <-).
  rewrite (affine_sum q _ d) by (auto; apply mwf_row; auto). assert (N0 : nth 0 q 0 = - sumR d (fun a => m a * u a)) by reflexivity.
  rewrite (sumR_ext d _ (fun a => (entry X i a - m a) * u a + m a * u a)) by (intros b Hb; rewrite Nq by auto; unfold entry; ring).
  rewrite sumR_plus. fold d in Hu. rewrite Hu by exact Hi. rewrite N0. ring.
Qed.
Lemma scat_pd X w m : mwf X -> spans X -> (forall i, (i < nrows X)%nat -> 0 < w i) -> pd (mcols X) (scat (nrows X) w (entry X) m).
Proof.
  intros W HS Hw u Hu. pose proof (gram_pd (mcols X) (nrows X) (fun i a => entry X i a - m a) (fun u H => spans_centered X m W HS u H) w Hw u Hu) as K.
  eapply Rlt_le_trans; [exact K|]. right. unfold qform, scat. apply sumR_ext. intros a Ha. apply sumR_ext. intros b Hb. f_equal. f_equal. apply sumR_ext. intros; ring.
Qed.
Lemma scat_psd n d w X m u : (forall i, (i < n)%nat -> 0 <= w i) -> 0 <= qform d (scat n w X m) u.
Proof.
  intro Hw. unfold qform, scat. rewrite (sumR_ext d _ (fun a => sumR n (fun i => w i * ((X i a - m a) * u a * sumR d (fun b => (X i b - m b) * u b))))).
  - rewrite sumR_exch. apply sumR_ge0. intros i Hi. rewrite sumR_scal, sumR_scal_r. apply Rmult_le_pos; [auto|apply Rle_0_sqr].
  - intros a Ha. rewrite (sumR_ext d _ (fun b => sumR n (fun i => w i * ((X i a - m a) * u a * ((X i b - m b) * u b))))).
    + rewrite sumR_exch. apply sumR_ext. intros i Hi. rewrite sumR_scal, sumR_scal. reflexivity.
    + intros b Hb. rewrite <- sumR_scal, <- sumR_scal_r. apply sumR_ext. intros; ring.
Qed.
Lemma scat_diag X w m a : (a < mcols X)%nat -> (exists i j, (i < nrows X)%nat /\ (j < nrows X)%nat /\ entry X i a <> entry X j a) -> (forall i, (i < nrows X)%nat -> 0 < w i) ->
  0 < scat (nrows X) w (entry X) m a a.
Proof.
  intros Ha (i & j & Hi & Hj & N) Hw. assert (K : exists l, (l < nrows X)%nat /\ entry X l a - m a <> 0).
  { destruct (Req_dec (entry X i a - m a) 0) as [E|E]; [|eauto]. exists j. split; [exact Hj|]. intro. apply N. lra. }
  destruct K as (l & Hl & Nl). unfold scat. apply Rlt_le_trans with (w l * ((entry X l a - m a) * (entry X l a - m a))).
  - apply Rmult_lt_0_compat; [auto|now apply Rsqr_pos_lt].
  - apply (sumR_ge_term (nrows X) (fun i => w i * ((entry X i a - m a) * (entry X i a - m a)))); auto. intros p Hp. apply Rmult_le_pos; [left; auto|apply Rle_0_sqr].
Qed.
(** The three shapes a covariance can take. *)
Lemma pd_diag d (f : nat -> R) : (forall a, (a < d)%nat -> 0 < f a) -> pd d (fun a b => if (a =? b)%nat then f a else 0).
Proof.
  intros H u (i & Hi & Hu). unfold qform. rewrite (sumR_ext d _ (fun a => f a * (u a * u a))).
  - apply Rlt_le_trans with (f i * (u i * u i)); [apply Rmult_lt_0_compat; [auto|now apply Rsqr_pos_lt]|].
    apply (sumR_ge_term d (fun a => f a * (u a * u a))); auto. intros a Ha. apply Rmult_le_pos; [left; auto|apply Rle_0_sqr].
  - intros a Ha. rewrite (sumR_ext d _ (fun b => if (a =? b)%nat then f a * (u a * u b) else 0)) by (intros b Hb; destruct (a =? b)%nat; ring).
    apply (sumR_pick d (fun b => f a * (u a * u b))). exact Ha.
Qed.
Lemma pd_scale d A c : 0 < c -> pd d A -> pd d (fun a b => A a b * c).
Proof.
  intros Hc H u Hu. specialize (H u Hu). unfold qform in *. rewrite (sumR_ext d _ (fun a => sumR d (fun b => u a * A a b * u b) * c)).
  - rewrite sumR_scal_r. now apply Rmult_lt_0_compat.
  - intros a Ha. rewrite <- sumR_scal_r. apply sumR_ext. intros; ring.
Qed.
Lemma pd_ext d A B : (forall a b, (a < d)%nat -> (b < d)%nat -> A a b = B a b) -> pd d A -> pd d B.
Proof. intros E H u Hu. specialize (H u Hu). eapply Rlt_le_trans; [exact H|]. right. unfold qform. apply sumR_ext. intros a Ha. apply sumR_ext. intros b Hb. now rewrite E. Qed.
Lemma qform_plus d A B u : qform d (fun a b => A a b + B a b) u = qform d A u + qform d B u.
Proof. unfold qform. rewrite <- sumR_plus. apply sumR_ext. intros a Ha. rewrite <- sumR_plus. apply sumR_ext. intros; ring. Qed.
Lemma varies_pd opt X w m s e : mwf X -> varies opt X -> (forall i, (i < nrows X)%nat -> 0 < w i) -> 0 < s -> 0 < e -> match opt with CovRegularized eps => 0 <= eps | _ => True end ->
  pd (mcols X) (fun a b => match opt with
    | CovFull => scat (nrows X) w (entry X) m a b * s
    | CovDiagonal => if (a =? b)%nat then scat (nrows X) w (entry X) m a a * s else 0
    | CovRegularized eps => scat (nrows X) w (entry X) m a b * s + (if (a =? b)%nat then eps * e else 0)
    end).
Proof.
  intros W HV Hw Hs He Hp. destruct opt as [|eps|]; cbn [varies] in HV.
  - apply pd_scale; [exact Hs|]. now apply scat_pd.
  - intros u Hu. rewrite qform_plus. assert (P1 : 0 <= qform (mcols X) (fun a b => scat (nrows X) w (entry X) m a b * s) u).
    { unfold qform. rewrite (sumR_ext _ _ (fun a => sumR (mcols X) (fun b => u a * scat (nrows X) w (entry X) m a b * u b) * s)) by (intros a Ha; rewrite <- sumR_scal_r; apply sumR_ext; intros; ring).
      rewrite sumR_scal_r. apply Rmult_le_pos; [|lra]. apply scat_psd. intros; left; auto. }
    destruct (Rlt_dec 0 eps) as [Q|Q].
    + pose proof (pd_diag (mcols X) (fun _ => eps * e) ltac:(intros; now apply Rmult_lt_0_compat) u Hu). cbn beta in *. lra.
    + destruct HV as [|HV]; [contradiction|]. pose proof (pd_scale (mcols X) _ s Hs (scat_pd X w m W HV Hw) u Hu) as K.
      assert (E : eps = 0) by lra. subst eps. assert (Z : qform (mcols X) (fun a b => if (a =? b)%nat then 0 * e else 0) u = 0).
      { unfold qform. apply sumR_zero. intros a Ha. apply sumR_zero. intros b Hb. destruct (a =? b)%nat; ring. }
      rewrite Z. lra.
  - apply (pd_diag (mcols X) (fun a => scat (nrows X) w (entry X) m a a * s)). intros a Ha. apply Rmult_lt_0_compat; [|exact Hs]. apply scat_diag; auto.
Qed.

Section Gmm.
  Variable lup : matrix R -> res (R * matrix R).
  Hypothesis lup_ok : lup_exact lup.
  Definition all_definite (d : nat) (self : GMM R) : Prop := forall Cs, gmm_covars self = Some Cs -> Forall (definite d) Cs.
  Lemma membership_ok d self X : mixture d self -> all_definite d self -> mwf X -> mcols X = d -> exists W ll, membership_weights lup self X = Ok (W, ll).
  Proof.
    intros ((Lw & _ & _) & (M & EM & WM & RM & CM) & (Cs & EC & LC & HC)) HD WX EX. destruct lup_ok as [LS LT]. specialize (HD Cs EC).
    assert (HL : exists dis, rmap lup Cs = Ok dis).
    { clear LC EC HC. induction HD as [|C Cs H _ IH]; [eexists; reflexivity|]. destruct (LT d C H) as (p & Ep). destruct IH as (dis & Ed). exists (p :: dis). cbn [rmap]. rewrite Ep, Ed. reflexivity. }
    destruct HL as (dis & Ed). unfold membership_weights. rewrite EC, EM, Ed. cbn [rbind].
    rewrite (rmap_ok _ (fun x => (map (posterior d (gmm_comp_count self) (gmm_mix_weights self) M dis (fun a => nth a x 0)) (seq 0 (gmm_comp_count self)),
                             mixed d (gmm_comp_count self) (gmm_mix_weights self) M dis (fun a => nth a x 0)))).
    - cbn [rbind]. eauto.
    - intros x Hx. apply row_value; auto; [rewrite <- LC; exact (rmap_length lup Cs dis Ed)|unfold mwf in WX; rewrite Forall_forall in WX; rewrite <- EX; auto|].
      intros j Hj. apply (dis_ok lup LS d Cs dis HC Ed j). lia.
  Qed.
  Lemma mstep_definite self X W : mwf X -> nrows W = nrows X -> mcols W = gmm_comp_count self ->
    (forall i, (i < nrows X)%nat -> (forall j, (j < gmm_comp_count self)%nat -> 0 < entry W i j) /\ sumR (gmm_comp_count self) (entry W i) = 1) -> (0 < nrows X)%nat ->
    eps_ok self -> varies (gmm_cov_option self) X -> all_definite (mcols X) (update_params self X W).
  Proof.
    intros WX RW CW HW HR He HV Cs ECs. pose proof (mstep_mixture self X W (mcols X) WX eq_refl RW CW HW HR He) as (_ & _ & (Cs' & EC' & LC' & HC')).
    destruct (mstep_covars self X W (mcols X) WX eq_refl RW CW HW HR) as (Cs'' & EC'' & LC & HC). rewrite ECs in EC', EC''. injection EC' as <-. injection EC'' as <-.
    apply Forall_forall. intros C HIn. rewrite Forall_forall in HC'. destruct (HC' C HIn) as (WC & RC & CC & SC & _). split; [exact WC|]. split; [exact RC|]. split; [exact CC|]. split; [exact SC|].
    destruct (In_nth _ _ (Mat [] 0) HIn) as (j & Hj & E). rewrite LC in Hj. destruct (HC j Hj) as (_ & EE). rewrite E in EE.
    pose proof (wsum_pos self X W HW HR j Hj) as HP.
    change (pd (mcols X) (entry C)). eapply pd_ext; [intros a b Ha Hb; symmetry; exact (EE a b Ha Hb)|].
    eapply pd_ext; [|apply (varies_pd (gmm_cov_option self) X (fun i => entry W i j) (wmean (nrows X) (entry W) (entry X) j) (/ wsum (nrows X) (entry W) j) (/ wsum (nrows X) (entry W) j) WX HV)].
    - intros a b Ha Hb. unfold fitted_cov. destruct (gmm_cov_option self); reflexivity.
    - intros i Hi. apply HW; auto.
    - now apply Rinv_0_lt_compat.
    - now apply Rinv_0_lt_compat.
    - exact He.
  Qed.
  Lemma em_good X : mwf X -> (0 < nrows X)%nat -> forall m self self' r, gmm_comp_count self <> O -> eps_ok self -> varies (gmm_cov_option self) X -> mixture (mcols X) self -> all_definite (mcols X) self ->
    em_loop lup m self X = (self', r) -> r = Ok tt /\ mixture (mcols X) self' /\ all_definite (mcols X) self'.
  Proof.
    intros WX HR. induction m as [|m IH]; intros self self' r Hk He HV HM HD H; cbn [em_loop] in H; [injection H as <- <-; auto|].
    destruct (membership_ok (mcols X) self X HM HD WX eq_refl) as (W & ll & E). rewrite E in H. destruct (nltb _ _); [injection H as <- <-; auto|].
    destruct (membership_distribution lup (proj1 lup_ok) (mcols X) self HM X W ll Hk WX eq_refl E) as (WW & RW & CW & HW).
    refine (IH _ _ _ _ _ _ _ _ H); auto.
    - apply (mstep_mixture (set_log_lik self ll) X W (mcols X)); auto.
    - apply mstep_definite; auto.
  Qed.
  Lemma start_definite self X rows : well_started self -> mwf X -> (1 < nrows X)%nat -> NoDup rows -> Forall (fun i => (i < nrows X)%nat) rows -> length rows = gmm_comp_count self -> varies (gmm_cov_option self) X ->
    all_definite (mcols X) (set_start self (Mat (map (fun i => nth i (mrows X) []) rows) (mcols X)) (repeat (initialize_covariances self X (1 / INR (nrows X - 1))) (gmm_comp_count self))).
  Proof.
    intros HS WX HX ND Hr Lr HV Cs ECs. assert (HN : 0 < INR (nrows X - 1)) by (apply lt_0_INR; lia).
    destruct (start_mixture self X rows HS WX HX Lr Hr) as (_ & _ & (Cs' & EC' & LC' & HC')).
    destruct (starting_set self X rows HX ND Hr Lr) as (_ & _ & _ & rows' & Cs'' & _ & _ & _ & _ & EC'' & _ & EE). rewrite ECs in EC', EC''. injection EC' as <-. injection EC'' as <-.
    apply Forall_forall. intros C HIn. rewrite Forall_forall in HC'. destruct (HC' C HIn) as (WC & RC & CC & SC & _). split; [exact WC|]. split; [exact RC|]. split; [exact CC|]. split; [exact SC|].
    change (pd (mcols X) (entry C)). eapply pd_ext; [intros a b Ha Hb; symmetry; exact (EE C HIn a b Ha Hb)|]. cbn [set_start gmm_cov_option].
    assert (Q : 0 < match gmm_cov_option self with CovDiagonal => / INR (nrows X - 1) / sqrt (INR (nrows X - 1)) | _ => / INR (nrows X - 1) end).
    { destruct (gmm_cov_option self); try (now apply Rinv_0_lt_compat). apply Rdiv_lt_0_compat; [now apply Rinv_0_lt_compat|now apply sqrt_lt_R0]. }
    eapply pd_ext; [|apply (varies_pd (gmm_cov_option self) X (fun _ => 1) (data_mean X) _ 1 WX HV ltac:(intros; lra) Q)].
    - assert (ES : forall a b, scat (nrows X) (fun _ => 1) (entry X) (data_mean X) a b * / INR (nrows X - 1) = data_cov X a b) by (intros a b; unfold data_cov, Rdiv; f_equal; apply sumR_ext; intros; ring).
      intros a b Ha Hb. unfold start_cov. destruct (gmm_cov_option self) as [|eps|].
      + apply ES.
      + rewrite ES. destruct (a =? b)%nat; ring.
      + destruct (a =? b)%nat; [|unfold Rdiv; ring]. rewrite <- ES. unfold Rdiv. ring.
    - lra.
    - apply HS.
  Qed.
  Lemma not_spans X : mwf X -> (0 < nrows X)%nat -> ~ spans X -> exists u, (exists k, (k < mcols X)%nat /\ u k <> 0) /\ forall i, (i < nrows X)%nat -> sumR (mcols X) (fun k => (entry X i k - data_mean X k) * u k) = 0.
  Proof.
    intros WX HR HN. apply Classical_Pred_Type.not_all_ex_not in HN. destruct HN as (q & HN). apply Classical_Prop.imply_to_and in HN. destruct HN as (Lq & HN). apply Classical_Prop.imply_to_and in HN. destruct HN as (HZ & NZ).
    set (d := mcols X) in *. set (u := fun a => nth (S a) q 0).
    assert (HA : forall i, (i < nrows X)%nat -> nth 0 q 0 + sumR d (fun a => u a * entry X i a) = 0).
    { intros i Hi. etransitivity; [|exact (HZ (nth i (mrows X) []) (nth_In _ _ Hi))]. rewrite (affine_sum q _ d) by (auto; apply mwf_row; auto). reflexivity. }
    assert (HNn : INR (nrows X) <> 0) by (apply not_0_INR; lia).
    assert (HMn : nth 0 q 0 + sumR d (fun a => u a * data_mean X a) = 0).
    { assert (T : sumR (nrows X) (fun i => nth 0 q 0 + sumR d (fun a => u a * entry X i a)) = 0) by (apply sumR_zero; auto).
      rewrite sumR_plus, sumR_const, sumR_exch in T. apply (Rmult_eq_reg_l (INR (nrows X))); [|exact HNn]. rewrite Rmult_0_r. etransitivity; [|exact T]. rewrite Rmult_plus_distr_l. apply (f_equal2 Rplus); [ring|].
      rewrite <- sumR_scal. apply sumR_ext. intros a Ha. rewrite sumR_scal. unfold data_mean. field. exact HNn. }
    exists u. split.
    - apply Classical_Prop.NNPP. intro HNo. apply NZ. apply repeat_nth0; [exact Lq|].
      assert (HU : forall a, (a < d)%nat -> u a = 0) by (intros a Ha; apply Classical_Prop.NNPP; intro; apply HNo; eauto).
      intros [|a] Ha; [|apply HU; lia]. rewrite sumR_zero in HMn by (intros a Hb; rewrite HU by auto; ring). lra.
    - intros i Hi. rewrite (sumR_ext d _ (fun k => u k * entry X i k - u k * data_mean X k)) by (intros; ring). rewrite sumR_minus. specialize (HA i Hi). lra.
  Qed.
  Lemma not_varies_fails self X self' r : well_started self -> mwf X -> ~ varies (gmm_cov_option self) X -> (0 < gmm_max_iters self)%nat ->
    outcome (gmm_train lup self X) (Some (self', r)) -> r <> Ok tt.
  Proof.
    intros HS WX HV Hit H. destruct (le_lt_dec (nrows X) 1) as [HN|HN].
    { destruct (train_shape lup self X self' r WX H) as [(_ & _ & ->)|(HX & _)]; [discriminate|lia]. }
    assert (HD : gmm_cov_option self = CovDiagonal \/ ~ spans X /\ (gmm_cov_option self = CovFull \/ gmm_cov_option self = CovRegularized 0)).
    { destruct HS as (_ & _ & He). destruct (gmm_cov_option self) as [|eps|]; cbn [varies] in HV; auto. right. split; [tauto|]. right. f_equal. apply Rle_antisym; [|exact He]. apply Rnot_lt_le. tauto. }
    destruct HD as [HD|(Hns & HO)].
    - rewrite HD in HV. cbn [varies] in HV. apply Classical_Pred_Type.not_all_ex_not in HV. destruct HV as (a & HV). apply Classical_Prop.imply_to_and in HV. destruct HV as (Ha & HV).
      apply (constant_column_fails lup (proj1 lup_ok) self X a self' r HS WX); auto. split; [exact Ha|]. exists (entry X 0 a). intros i Hi. apply Classical_Prop.NNPP. intro N. apply HV. exists i, 0%nat. repeat split; auto; lia.
    - destruct (not_spans X WX ltac:(lia) Hns) as (u & Hu & HZ). apply (singular_fails lup (proj1 lup_ok) self X u self' r HS WX Hu); auto. intros _ a Ha.
      assert (HMn : forall a, (a < mcols X)%nat -> nth a (col_mean X) 0 = data_mean X a).
      { intros l Hl. unfold col_mean. rewrite nth_map_seq by exact Hl. cbn [ndiv nofnat NumR]. rewrite vsum_R, rsum_nth, col_length. unfold data_mean. f_equal. apply sumR_ext. intros i Hi. apply col_nth. exact Hi. }
      rewrite (sumR_ext _ _ (fun b => sumR (nrows X) (fun i => ((entry X i a - data_mean X a) * (1 / INR (nrows X - 1))) * ((entry X i b - data_mean X b) * u b)))).
      + rewrite sumR_exch. apply sumR_zero. intros i Hi. rewrite sumR_scal, HZ by exact Hi. ring.
      + intros b Hb. destruct (initial_cov_entry self X (1 / INR (nrows X - 1)) a b Ha Hb) as (_ & ->). destruct HO as [-> | ->].
        * unfold scatter. rewrite <- !sumR_scal_r. apply sumR_ext. intros i _. rewrite !HMn by auto. ring.
        * replace (if (a =? b)%nat then 0 else 0) with 0 by (destruct (a =? b)%nat; reflexivity). rewrite Rplus_0_r. unfold scatter. rewrite <- !sumR_scal_r. apply sumR_ext. intros i _. rewrite !HMn by auto. ring.
  Qed.
  Theorem gmm_succeeds self X : well_started self -> mwf X -> (0 < gmm_max_iters self)%nat ->
    (forall self' r, outcome (gmm_train lup self X) (Some (self', r)) ->
      (r = Ok tt <-> (1 < nrows X)%nat /\ varies (gmm_cov_option self) X) /\
      (r = Ok tt -> forall Q, mwf Q -> mcols Q = mcols X -> exists P, gmm_predict lup self' Q = Ok P)) /\
    (outcome (gmm_train lup self X) None <-> (1 < nrows X < gmm_comp_count self)%nat).
  Proof.
    intros HS WX Hit. split.
    - intros self' r H.
      assert (K : (1 < nrows X)%nat -> varies (gmm_cov_option self) X -> r = Ok tt /\ mixture (mcols X) self' /\ all_definite (mcols X) self').
      { intros HX HV. destruct (train_shape lup self X self' r WX H) as [(N & _)|(_ & Hle & rows & ND & Hr & Lr & E)]; [contradiction|].
        refine (em_good X WX ltac:(lia) _ _ _ _ _ _ _ _ _ E).
        - apply HS.
        - apply HS.
        - exact HV.
        - apply start_mixture; auto.
        - apply start_definite; auto. }
      assert (L : r = Ok tt -> (1 < nrows X)%nat /\ varies (gmm_cov_option self) X).
      { intro E. split.
        - destruct (train_shape lup self X self' r WX H) as [(_ & _ & E')|(HX & _)]; [congruence|exact HX].
        - apply Classical_Prop.NNPP. intro HV. exact (not_varies_fails self X self' r HS WX HV Hit H E). }
      split; [split; [exact L|]|].
      + intros [HX HV]. apply K; auto.
      + intros E Q WQ EQ. destruct (L E) as [HX HV]. destruct (K HX HV) as (_ & HM & HD). destruct (membership_ok (mcols X) self' Q HM HD WQ EQ) as (P & ll & EP).
        destruct HM as (_ & (M & EM & _) & (Cs & EC & _)). unfold gmm_predict. rewrite EM, EC, EP. cbn [rbind]. eauto.
    - unfold gmm_train. destruct (Nat.ltb_spec 1 (nrows X)) as [HX|HX]; cbn [negb].
      + split.
        * intro H. apply outcome_bind in H. destruct H as [(rows & H1 & H2)|(_ & H1)].
          -- exfalso. destruct (reservoir_sample_outcome _ _ _ H1) as [(_ & Q)|(Hle & r' & rest & Q & Lr & P)]; [discriminate|]. injection Q as <-.
             destruct (seq_rows_lt _ _ _ P) as (Hr & _). rewrite (rows_opt_spec (mrows X) rows []) in H2 by exact Hr. cbn [rnd_opt rnd_bind] in H2. inversion H2.
          -- split; [exact HX|]. destruct (reservoir_sample_outcome _ _ _ H1) as [(Q & _)|(Hle & r' & rest & Q & _)]; [|discriminate]. now rewrite seq_length in Q.
        * intros [_ HK]. unfold reservoir_sample. rewrite seq_length. replace (gmm_comp_count self <=? nrows X)%nat with false by (symmetry; apply Nat.leb_gt; exact HK). cbn. constructor.
      + split; [intro H; inversion H|lia].
  Qed.
End Gmm.
