(** Lemmas for [Props_Succeeds]: least squares, generalised linear models, Gaussian processes. *)
From Coq Require Import List Arith Reals Lra Lia Bool.
From Verif Require Import Base BaseLemmas Num NumFn Linalg LinalgR Spec_Calc CalcR Proof_KMeans Proof_Cost Proof_Toolkit MatR Model_Optim Proof_Optim2 Model_GMM Spec_GMM Model_Regression Spec_Regression Proof_Regression Model_GLM Spec_GLM Proof_GLM
  Model_Kernel Spec_Kernel Model_GP Spec_GP Proof_GP Spec_Succeeds Proof_EM Proof_Inverse Proof_Oracles.
Import ListNotations.
Local Open Scope R_scope.

(** The rows span the affine functions iff the columns, with the column of ones, are independent. *)
Definition cols_indep (r c : nat) (A : nat -> nat -> R) : Prop := forall x, (forall i, (i < r)%nat -> sumR c (fun j => A i j * x j) = 0) -> forall j, (j < c)%nat -> x j = 0.
Lemma spans_indep X : mwf X -> (spans X <-> cols_indep (nrows X) (S (mcols X)) (entry (with_ones X))).
Proof.
  intro W. pose proof (with_ones_wf X W) as WZ. pose proof (with_ones_nrows X) as NZ. split.
  - intros H x Hx j Hj. set (q := map x (seq 0 (S (mcols X)))). assert (Lq : length q = S (mcols X)) by (unfold q; now rewrite map_length, seq_length).
    assert (Nq : forall k, (k < S (mcols X))%nat -> nth k q 0 = x k) by (intros k Hk; unfold q; now rewrite nth_map_seq).
    rewrite <- Nq by auto. rewrite (H q Lq); [apply nth_repeat|]. intros r Hr. destruct (In_nth _ _ [] Hr) as (i & Hi & <-).
    assert (E : nth i (mat_vec (with_ones X) q) 0 = 0).
    { rewrite mat_vec_nth by (auto; rewrite NZ; exact Hi). etransitivity; [|exact (Hx i Hi)]. apply sumR_ext. intros k Hk. rewrite Nq by auto. reflexivity. }
    rewrite mat_vec_ones in E by auto. rewrite (nth_map (affine q) _ _ _ []) in E by exact Hi. exact E.
  - intros H q Lq Hq. apply repeat_nth0; [exact Lq|]. apply (H (fun j => nth j q 0)). intros i Hi. change (S (mcols X)) with (mcols (with_ones X)). rewrite <- mat_vec_nth by (auto; lia).
    rewrite mat_vec_ones by auto. rewrite (nth_map (affine q) _ _ _ []) by exact Hi. apply Hq, nth_In, Hi.
Qed.
(** A Gram matrix with positive weights is regular iff the columns are independent. *)
Lemma gram_regular (Z : matrix R) w G : mwf Z -> (forall i, (i < nrows Z)%nat -> 0 < w i) -> mwf G -> nrows G = mcols Z -> mcols G = mcols Z ->
  (forall a b, (a < mcols Z)%nat -> (b < mcols Z)%nat -> entry G a b = sumR (nrows Z) (fun i => entry Z i a * w i * entry Z i b)) ->
  (regular G <-> cols_indep (nrows Z) (mcols Z) (entry Z)).
Proof.
  intros W Hw WG RG CG HG. rewrite (regular_inj G (mcols Z)) by auto. split.
  - intros H x Hx. apply H. intros a Ha. rewrite (sumR_ext _ _ (fun b => sumR (nrows Z) (fun i => entry Z i a * w i * (entry Z i b * x b)))).
    + rewrite sumR_exch. apply sumR_zero. intros i Hi. rewrite sumR_scal, Hx by auto. ring.
    + intros b Hb. rewrite HG by auto. rewrite <- sumR_scal_r. apply sumR_ext. intros; ring.
  - intros H. pose proof (pd_inj _ _ (gram_pd (mcols Z) (nrows Z) (entry Z) H w Hw)) as K. intros x Hx. apply K. intros i Hi. etransitivity; [|exact (Hx i Hi)]. apply sumR_ext. intros j Hj. now rewrite HG.
Qed.

(** Least squares. *)
Theorem lr_succeeds solve (self : LinRegressor R) X y : solver_exact solve -> mwf X ->
  (snd (lr_train solve self X y) = Ok tt <-> length y = nrows X /\ spans X).
Proof.
  intros [Ss Se] W. rewrite spans_indep by auto. unfold lr_train. set (Z := with_ones X). pose proof (with_ones_wf X W) as WZ. fold Z in WZ. assert (NZ : nrows Z = nrows X) by apply with_ones_nrows.
  assert (HG : regular (mat_mul (transpose Z) Z) <-> cols_indep (nrows X) (S (mcols X)) (entry Z)).
  { rewrite <- NZ. change (S (mcols X)) with (mcols Z). apply (gram_regular Z (fun _ => 1)); auto; [intros; lra|apply mat_mul_wf|now rewrite mat_mul_nrows, transpose_nrows|].
    intros a b Ha Hb. rewrite mat_mul_entry; [|apply transpose_wf|now rewrite transpose_mcols|now rewrite transpose_nrows|exact Hb]. rewrite transpose_mcols. apply sumR_ext. intros i Hi. rewrite transpose_entry by auto. ring. }
  unfold rmat_vec, rassert. rewrite transpose_mcols, NZ. destruct (Nat.eqb_spec (nrows X) (length y)) as [Ly|Ly]; cbn [rbind].
  - specialize (Se (mat_mul (transpose Z) Z) (mat_vec (transpose Z) y) (mat_mul_wf _ _)). rewrite mat_mul_nrows, transpose_nrows, mat_vec_length', transpose_nrows in Se. specialize (Se eq_refl eq_refl).
    rewrite <- HG, <- Se. split.
    + intro H. split; [auto|]. destruct (solve _ _) as [x| |]; [eauto|discriminate|discriminate].
    + intros (_ & x & ->). reflexivity.
  - split; [discriminate|]. intros [E _]. congruence.
Qed.

(** Generalised linear models: the weights stay positive. *)
Definition good_weights (cr : Criterion R) (n : nat) (mu : list R) : Prop :=
  exists w, cr_working_weight cr mu = Ok w /\ length w = n /\ forall i, (i < n)%nat -> 0 < nth i w 0.
Lemma weighted_entry (Z : matrix R) w a b : mwf Z -> length w = nrows Z -> (a < mcols Z)%nat -> (b < mcols Z)%nat ->
  entry (mat_mul (mat_mul (transpose Z) (from_diag w)) Z) a b = sumR (nrows Z) (fun i => entry Z i a * nth i w 0 * entry Z i b).
Proof.
  intros W Lw Ha Hb. rewrite mat_mul_entry; [|apply mat_mul_wf|cbn; auto|now rewrite mat_mul_nrows, transpose_nrows|exact Hb]. cbn [mat_mul mcols from_diag]. rewrite Lw. apply sumR_ext. intros i Hi. f_equal.
  change (Mat _ _) with (mat_mul (transpose Z) (from_diag w)).
  rewrite mat_mul_entry; [|apply transpose_wf|now rewrite from_diag_nrows, transpose_mcols|now rewrite transpose_nrows|cbn; lia]. rewrite transpose_mcols.
  rewrite (sumR_ext _ _ (fun j => if (i =? j)%nat then entry Z j a * nth j w 0 else 0)).
  - rewrite (sumR_pick (nrows Z) (fun j => entry Z j a * nth j w 0)) by auto. reflexivity.
  - intros j Hj. rewrite transpose_entry by auto. rewrite from_diag_entry by lia. destruct (Nat.eqb_spec j i) as [->|N]; [rewrite Nat.eqb_refl; reflexivity|]. destruct (Nat.eqb_spec i j); [congruence|ring].
Qed.
Lemma pass_succeeds inverse cr Z y mu z : inverse_exact inverse -> mwf Z -> good_weights cr (nrows Z) mu ->
  (cols_indep (nrows Z) (mcols Z) (entry Z) -> exists b, glm_pass inverse cr Z y mu z = Ok (b, map (lk_inv (cr_link cr)) (mat_vec Z b), vadd (cr_y_bar cr y mu) (mat_vec Z b))) /\
  (~ cols_indep (nrows Z) (mcols Z) (entry Z) -> glm_pass inverse cr Z y mu z = Panic).
Proof.
  intros [Is It] W (w & Ew & Lw & Pw). unfold glm_pass. rewrite Ew. cbn [rbind]. set (G := mat_mul (mat_mul (transpose Z) (from_diag w)) Z).
  assert (HG : regular G <-> cols_indep (nrows Z) (mcols Z) (entry Z)).
  { apply (gram_regular Z (fun i => nth i w 0)); auto; [apply mat_mul_wf|unfold G; now rewrite !mat_mul_nrows, transpose_nrows|]. intros a b Ha Hb. now apply weighted_entry. }
  split.
  - intro H. apply HG in H. destruct (It G H) as (B & ->). eexists. reflexivity.
  - intro H. destruct (inverse G) as [B|] eqn:E; [|reflexivity]. exfalso. apply H, HG.
    assert (RG : nrows G = mcols Z) by (unfold G; now rewrite !mat_mul_nrows, transpose_nrows).
    destruct (Is G B (mat_mul_wf _ _) RG E) as (WB & RB & CB & HB).
    split; [apply mat_mul_wf|]. split; [exact RG|]. intros v Lv Ev. change (mcols G) with (mcols Z) in *. destruct (HB v ltac:(congruence)) as [_ Q]. rewrite <- Q, Ev.
    apply repeat_nth0; [rewrite mat_vec_length'; congruence|]. intros i Hi. rewrite mat_vec_nth; [|exact WB|rewrite repeat_length; congruence|congruence]. apply sumR_zero. intros j Hj. rewrite nth_repeat. ring.
Qed.
Lemma loop_succeeds inverse cr Z y : inverse_exact inverse -> mwf Z -> cols_indep (nrows Z) (mcols Z) (entry Z) ->
  (forall eta, length eta = nrows Z -> good_weights cr (nrows Z) (map (lk_inv (cr_link cr)) eta)) ->
  forall fuel mu z beta, good_weights cr (nrows Z) mu -> exists b, glm_loop fuel inverse cr Z y mu z beta = Ok b.
Proof.
  intros HI W Hc Hg. induction fuel as [|fuel IH]; intros mu z beta Hm; cbn [glm_loop]; [eauto|].
  destruct (proj1 (pass_succeeds inverse cr Z y mu z HI W Hm) Hc) as (b & ->). cbn [rbind]. destruct (nltb _ _); [eauto|]. apply IH, Hg. apply mat_vec_length'.
Qed.
Lemma tiny_pos n : 0 < tiny (F := R) n.
Proof. unfold tiny. rewrite pow10_R. cbn. apply Rdiv_lt_0_compat; [lra|apply pow_lt; lra]. Qed.
Lemma clip_pos v : 0 < v -> 0 < clip_weight v.
Proof. intro H. unfold clip_weight. destruct (nltb _ _); [apply tiny_pos|exact H]. Qed.
Lemma bern_variance_pos m : 0 < m < 1 -> 0 < bern_variance m.
Proof. intro H. unfold bern_variance. destruct (nltb _ _); [apply tiny_pos|]. cbn. nra. Qed.
Lemma tiny_lt n : (0 < n)%nat -> tiny (F := R) n < 1 / 2.
Proof.
  intro H. unfold tiny. rewrite pow10_R. cbn [ndiv nonev NumR]. destruct n as [|n]; [lia|]. assert (P : 1 <= 10 ^ n) by (apply pow_R1_Rle; lra).
  apply Rmult_lt_compat_l; [lra|]. apply Rinv_lt_contravar; [|]; cbn [pow]; nra.
Qed.
Lemma bern_mu_range y i : (i < length y)%nat -> 0 < nth i (bern_mu y) 0 < 1.
Proof.
  intro Hi. unfold bern_mu. rewrite (nth_map _ _ i 0 0) by exact Hi. pose proof (tiny_pos 10). pose proof (tiny_lt 10 ltac:(lia)).
  cbn [nltb NumR nsub nonev]. destruct (Rlt_dec _ _) as [A|A]; [lra|]. destruct (Rlt_dec _ _) as [B|B]; cbn in *; lra.
Qed.
Lemma good_bernoulli n mu : length mu = n -> (forall i, (i < n)%nat -> 0 < nth i mu 0 < 1) -> good_weights Bernoulli n mu.
Proof.
  intros L H. eexists. split; [reflexivity|]. split; [now rewrite map_length|]. intros i Hi. rewrite (nth_map _ _ i 0 0) by lia. apply clip_pos, bern_variance_pos. now apply H.
Qed.
Lemma good_binomial ws n mu : (n <= length ws)%nat -> (forall i, (i < n)%nat -> 0 < nth i ws 0) -> length mu = n -> (forall i, (i < n)%nat -> 0 < nth i mu 0 < 1) -> good_weights (Binomial ws) n mu.
Proof.
  intros Lw Pw L H. exists (map (fun im => clip_weight (bern_variance (snd im) / nth (fst im) ws 0)) (combine (seq 0 (length mu)) mu)). split; [|split].
  - cbn [cr_working_weight Binomial]. apply rmap_ok. intros [i m] Hin. cbn [fst snd]. apply in_combine_l in Hin. apply in_seq in Hin. unfold ridx. rewrite (nth_error_nth' ws 0) by lia. reflexivity.
  - rewrite map_length, combine_length, seq_length. lia.
  - intros i Hi. rewrite (nth_map _ _ i 0 (0%nat, 0)) by (rewrite combine_length, seq_length; lia). rewrite combine_nth by apply seq_length. cbn [fst snd]. rewrite seq_nth by lia. cbn [Nat.add].
    apply clip_pos. apply Rdiv_lt_0_compat; [apply bern_variance_pos; auto|auto].
Qed.
Lemma logit_range e : 0 < lk_inv (F := R) Logit e < 1.
Proof.
  cbn. pose proof (exp_pos (- e)). split; [apply Rdiv_lt_0_compat; lra|]. apply (Rmult_lt_reg_r (1 + exp (- e))); [lra|]. unfold Rdiv. rewrite Rmult_assoc, Rinv_l by lra. lra.
Qed.
Lemma family_good n cr : crate_family n cr -> (forall y, length y = n -> good_weights cr n (cr_initialize_mu cr y)) /\ forall eta, length eta = n -> good_weights cr n (map (lk_inv (cr_link cr)) eta).
Proof.
  intros [| | |ws Lw Pw].
  - split; intros y L; (eexists; split; [reflexivity|]; split; [cbn [cr_initialize_mu Normal]; unfold default_weight, default_mu; rewrite ?map_length; exact L|]; intros i Hi; cbn [cr_initialize_mu Normal cr_link]; unfold default_weight, default_mu;
      rewrite (nth_map _ _ i 0 0) by (rewrite ?map_length; lia); cbn; lra).
  - split; intros y L.
    + eexists. split; [reflexivity|]. cbn [cr_initialize_mu Poisson]. split; [now rewrite map_length|]. intros i Hi. rewrite (nth_map _ _ i 0 0) by lia. pose proof (tiny_pos 10). cbn [nltb NumR]. destruct (Rlt_dec _ _); lra.
    + eexists. split; [reflexivity|]. split; [now rewrite map_length|]. intros i Hi. rewrite (nth_map _ _ i 0 0) by lia. cbn. apply exp_pos.
  - split; intros y L.
    + apply good_bernoulli; [unfold cr_initialize_mu, Bernoulli, bern_mu; now rewrite map_length|]. intros i Hi. apply bern_mu_range. lia.
    + apply good_bernoulli; [now rewrite map_length|]. intros i Hi. rewrite (nth_map _ _ i 0 0) by lia. apply logit_range.
  - split; intros y L.
    + apply good_binomial; auto; [unfold cr_initialize_mu, Binomial, bern_mu; now rewrite map_length|]. intros i Hi. apply bern_mu_range. lia.
    + apply good_binomial; auto; [now rewrite map_length|]. intros i Hi. rewrite (nth_map _ _ i 0 0) by lia. apply logit_range.
Qed.
Theorem glm_succeeds inverse cr (self : GenLinearModel R) X y : inverse_exact inverse -> mwf X -> crate_family (nrows X) cr ->
  (snd (glm_train inverse cr self X y) = Ok tt <-> nrows X = length y /\ spans X) /\
  (nrows X = length y -> ~ spans X -> snd (glm_train inverse cr self X y) = Panic).
Proof.
  intros HI W HF. destruct (family_good _ _ HF) as [G1 G2]. unfold glm_train. destruct (Nat.eqb_spec (nrows X) (length y)) as [Ly|Ly]; cbn [negb].
  2:{ split; [split; [discriminate|intros [E _]; congruence]|intro; congruence]. }
  pose proof (with_ones_wf X W) as WZ. assert (NZ : nrows (with_ones X) = nrows X) by apply with_ones_nrows. set (mu := cr_initialize_mu cr y).
  assert (Gm : good_weights cr (nrows (with_ones X)) mu) by (rewrite NZ; apply G1; auto).
  assert (HS : spans X <-> cols_indep (nrows (with_ones X)) (mcols (with_ones X)) (entry (with_ones X))) by (rewrite NZ; now apply spans_indep).
  assert (K1 : spans X -> exists b, glm_loop 8 inverse cr (with_ones X) y mu mu (repeat nzero (S (mcols X))) = Ok b).
  { intro H. apply loop_succeeds; auto; [now apply HS|]. rewrite NZ. exact G2. }
  assert (K2 : ~ spans X -> glm_loop 8 inverse cr (with_ones X) y mu mu (repeat nzero (S (mcols X))) = Panic).
  { intro H. rewrite HS in H. cbn [glm_loop]. rewrite (proj2 (pass_succeeds inverse cr _ y mu mu HI WZ Gm) H). reflexivity. }
  split; [split|].
  - intro H. split; [exact Ly|]. destruct (glm_loop _ _ _ _ _ _ _ _) as [b| |] eqn:E; try discriminate H. apply HS.
    destruct (Classical_Prop.classic (cols_indep (nrows (with_ones X)) (mcols (with_ones X)) (entry (with_ones X)))) as [|N]; [assumption|]. rewrite <- HS in N. specialize (K2 N). discriminate K2.
  - intros [_ H]. destruct (K1 H) as (b & ->). reflexivity.
  - intros _ H. rewrite (K2 H). reflexivity.
Qed.

(** Gaussian processes. *)
Lemma noisy_entry k s X a b : (a < nrows X)%nat -> (b < nrows X)%nat -> entry (noisy k s X) a b = k (pt X a) (pt X b) + s * dlt a b.
Proof.
  intros Ha Hb. unfold noisy. rewrite mzip_entry; auto using gram_wf, scaled_identity_wf.
  all: rewrite ?gram_nrows, ?scaled_identity_nrows; auto. rewrite gram_entry, scaled_identity_entry by auto. unfold dlt. destruct (Nat.eqb_spec a b); ring.
Qed.
Theorem gp_succeeds (ker : Kernel R) k mean cholesky solve_l solve_u (self : GaussianProcess R) X y :
  cholesky_exact cholesky -> triangular_exact lower_triangular solve_l -> triangular_exact upper_triangular solve_u -> mwf X ->
  kernel_is (mcols X) ker k -> psd_kernel (mcols X) ker -> symmetric ker -> 0 < gp_noise self -> length y = nrows X -> length (mean X) = nrows X ->
  snd (gp_train ker mean cholesky solve_l solve_u self X y) = Ok tt.
Proof.
  intros [Cs Ce] [Ls Le] [Us Ue] W Hk HP HS Hn Ly Lm. set (n := nrows X). set (A := noisy k (gp_noise self) X).
  assert (Rows : forall i, (i < n)%nat -> length (pt X i) = mcols X) by (intros i Hi; unfold pt, mwf in *; rewrite Forall_forall in W; apply W, nth_In; exact Hi).
  assert (EA : forall a b, (a < n)%nat -> (b < n)%nat -> entry A a b = k (pt X a) (pt X b) + gp_noise self * dlt a b) by (intros a b Ha Hb; unfold A; now apply noisy_entry).
  assert (DA : definite n A).
  { split; [apply noisy_wf|]. split; [apply noisy_nrows|]. split; [reflexivity|]. split.
    - intros a b Ha Hb. rewrite !EA by auto. assert (E : k (pt X a) (pt X b) = k (pt X b) (pt X a)) by (apply Ok_inj; rewrite <- !Hk by (apply Rows; auto); apply HS). rewrite E. unfold dlt. rewrite (Nat.eqb_sym a b). ring.
    - intros u (a & Ha & Hu). destruct (HP n (pt X) Rows) as (K & HK & KP).
      assert (E : sumR n (fun a => sumR n (fun b => u a * entry A a b * u b)) = sumR n (fun i => sumR n (fun j => u i * u j * K i j)) + gp_noise self * sumR n (fun a => u a * u a)).
      { rewrite <- sumR_scal, <- sumR_plus. apply sumR_ext. intros i Hi. rewrite (sumR_ext n _ (fun j => u i * u j * K i j + gp_noise self * u i * (dlt i j * u j))).
        - rewrite sumR_plus, sumR_scal, sum_dlt by auto. ring.
        - intros j Hj. rewrite EA by auto. assert (Q : K i j = k (pt X i) (pt X j)) by (apply Ok_inj; rewrite <- HK, Hk by auto; reflexivity). rewrite Q. ring. }
      rewrite E. assert (0 < sumR n (fun a => u a * u a)).
      { apply Rlt_le_trans with (u a * u a); [now apply Rsqr_pos_lt|]. apply (sumR_ge_term n (fun a => u a * u a)); auto. intros; apply Rle_0_sqr. }
      specialize (KP u). nra. }
  destruct (Ce n A DA) as (L & EL). destruct (Cs A L (noisy_wf _ _ _) (noisy_nrows _ _ _) EL) as (WL & RL & CL & TL & AL). unfold A in RL, CL, AL. rewrite noisy_nrows in RL, CL, AL. fold n in RL, CL, AL. fold A in AL.
  assert (IA : inj n (entry A)) by (apply pd_inj; intros u Hu; apply (proj2 (proj2 (proj2 (proj2 DA))) u Hu)).
  assert (RT : rinv n (entry L) (fun k j => sumR n (fun i => entry L i k * ginv n (entry A) i j))).
  { intros a b Ha Hb. rewrite <- (inj_inverse n (entry A) IA a b Ha Hb).
    rewrite (sumR_ext n _ (fun k => sumR n (fun i => entry L a k * entry L i k * ginv n (entry A) i b))) by (intros i Hi; rewrite <- sumR_scal; apply sumR_ext; intros; ring).
    rewrite sumR_exch. apply sumR_ext. intros j Hj. rewrite sumR_scal_r. f_equal.
    (* column j of L L^T *)
    set (e := map (dlt j) (seq 0 n)). assert (Le' : length e = n) by (unfold e; now rewrite map_length, seq_length). assert (Ne : forall i, (i < n)%nat -> nth i e 0 = dlt j i) by (intros i Hi; unfold e; now rewrite nth_map_seq).
    pose proof (f_equal (fun l => nth a l 0) (AL e Le')) as Q. cbn beta in Q.
    rewrite mat_vec_nth in Q by (auto; rewrite ?mat_vec_length', ?transpose_nrows; lia). rewrite mat_vec_nth in Q; [|apply noisy_wf|exact Le'|unfold A; now rewrite noisy_nrows].
    change (mcols A) with n in Q. rewrite CL in Q. rewrite (sumR_ext n (fun j0 => entry A a j0 * nth j0 e 0) (fun j0 => dlt j j0 * entry A a j0)) in Q by (intros i Hi; rewrite Ne by auto; ring). rewrite (sum_dlt n (fun j0 => entry A a j0)) in Q by auto. rewrite <- Q.
    apply sumR_ext. intros i Hi. f_equal. rewrite mat_vec_nth; [|apply transpose_wf|rewrite transpose_mcols; congruence|rewrite transpose_nrows; lia]. rewrite transpose_mcols, RL.
    rewrite (sumR_ext n _ (fun j0 => dlt j j0 * entry L j0 i)) by (intros m Hm; rewrite transpose_entry by lia; rewrite Ne by auto; ring). symmetry. apply (sum_dlt n (fun j0 => entry L j0 i)). auto. }
  assert (GL : regular L) by (apply (regular_inj L n); auto; apply (rinv_inj n _ _ RT)).
  assert (GU : regular (transpose L)).
  { apply (regular_inj (transpose L) n); [apply transpose_wf|now rewrite transpose_nrows|now rewrite transpose_mcols|].
    apply (left_inj n _ (fun a b => sumR n (fun i => entry L i b * ginv n (entry A) i a))). intros a b Ha Hb.
    replace (dlt a b) with (dlt b a) by (unfold dlt; now rewrite Nat.eqb_sym). rewrite <- (RT b a Hb Ha). apply sumR_ext. intros i Hi. rewrite transpose_entry by lia. ring. }
  unfold gp_train. rewrite (ker_mat_R (mcols X) ker k) by auto. cbn [unwrap rbind].
  change (mzip nadd (gram k X X) (scaled_identity (nrows X) (gp_noise self))) with A. rewrite EL.
  assert (Ed : rvsub y (mean X) = Ok (vsub y (mean X))) by (unfold rvsub, rassert; replace (length y =? length (mean X))%nat with true by (symmetry; apply Nat.eqb_eq; congruence); reflexivity).
  rewrite Ed. cbn [rbind]. assert (Ld : length (vsub y (mean X)) = n) by (rewrite vsub_len'; unfold n; lia).
  destruct (Le L (vsub y (mean X)) TL GL ltac:(rewrite Ld; auto)) as (x & Ex). rewrite Ex. cbn [unwrap rbind].
  destruct (Ls _ _ _ WL TL Ex) as (Lx & _). destruct (Ue (transpose L) x (transpose_upper L WL TL) GU) as (a & Ea). { rewrite transpose_nrows. exact Lx. }
  rewrite Ea. reflexivity.
Qed.
