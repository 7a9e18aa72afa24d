(** * Logistic and generalized linear models balance the targets (C171) *)
From Coq Require Import List Arith Lia Bool Reals Lra.
From Verif Require Import Base BaseLemmas Num NumFn Linalg LinalgR Euclid Spec_Calc CalcR MatR Proof_KMeans Model_Toolkit Proof_Toolkit
  Model_Optim Spec_Optim Proof_Optim Proof_Optim2 Model_Regression Spec_Regression Proof_Regression Proof_Regression2 Model_GLM Spec_GLM Proof_GLM Proof_GLM2 Proof_Converge Proof_Converge2
  Spec_Succeeds Spec_GDRate Spec_Overlap Proof_Overlap Proof_OverlapEx Spec_Calib.
Import ListNotations.
Local Open Scope R_scope.

Lemma feature_entry X i k : (i < nrows X)%nat -> feature X i k = entry (with_ones X) i k.
Proof. intros H. unfold feature, entry, with_ones. cbn [mrows]. rewrite (nth_map _ _ _ _ []) by exact H. reflexivity. Qed.
Lemma bias_balances X y out : (0 < nrows X)%nat -> (balances X y out <-> forall k, (k <= mcols X)%nat -> bias X y out k = 0).
Proof.
  intros Hn. pose proof (lt_0_INR _ Hn) as P. unfold balances, bias.
  assert (E : forall k, sumR (nrows X) (fun i => (nth i out 0 - nth i y 0) * feature X i k) =
    sumR (nrows X) (fun i => nth i out 0 * feature X i k) - sumR (nrows X) (fun i => nth i y 0 * feature X i k)).
  { intros k. rewrite <- sumR_minus. apply sumR_ext. intros; ring. }
  split; intros H k Hk; specialize (H k Hk).
  - rewrite E, H. unfold Rdiv. ring.
  - rewrite E in H. apply Rmult_integral in H. destruct H as [H|H]; [lra|]. pose proof (Rinv_0_lt_compat _ P). lra.
Qed.

Section Logistic.
Context (X : matrix R) (y : list R) (W : mwf X) (Hn : (0 < nrows X)%nat) (Ly : length y = nrows X).
Context (self : LogisticRegressor R) (p : list R) (Lp : length p = S (mcols X)) (Es : log_parameters self = Some p).
Let Z := with_ones X.
Let g := lg_grad Z y p.

Lemma calib_out : exists out, log_predict self X = Ok out /\ length out = nrows X /\
  length g = S (mcols X) /\ forall k, (k <= mcols X)%nat -> nth k g 0 = bias X y out k.
Proof.
  unfold log_predict. rewrite Es, rmat_vec_eq by exact Lp. cbn [rbind]. eexists. split; [reflexivity|].
  assert (WZ : mwf Z) by now apply with_ones_wf.
  assert (LZ : length (mat_vec Z p) = nrows X) by (unfold Z; rewrite mat_vec_length', with_ones_nrows; auto).
  assert (Lr : length (vsub (map sigmoid (mat_vec Z p)) y) = nrows X) by (rewrite vsub_len'; rewrite map_length; lia).
  assert (WT : mwf (transpose Z)) by apply transpose_wf.
  assert (Lm : length (mat_vec (transpose Z) (vsub (map sigmoid (mat_vec Z p)) y)) = S (mcols X)) by (rewrite mat_vec_length', transpose_nrows; reflexivity).
  split; [rewrite map_length; exact LZ|]. split. { unfold g, lg_grad. rewrite map_length. exact Lm. }
  intros k Hk. unfold g, lg_grad, bias. rewrite (nth_map (fun x => x / INR (nrows Z)) _ _ _ 0) by (rewrite Lm; lia).
  replace (nrows Z) with (nrows X) by (symmetry; apply with_ones_nrows). f_equal.
  rewrite mat_vec_nth; [|exact WT|rewrite Lr; symmetry; exact (with_ones_nrows X)|rewrite transpose_nrows; cbn; lia].
  change (mcols (transpose Z)) with (nrows Z). unfold Z at 1. rewrite with_ones_nrows. apply sumR_ext. intros i Hi.
  rewrite transpose_entry by (unfold Z; rewrite ?with_ones_nrows; cbn [with_ones mcols]; lia). rewrite (feature_entry X i k Hi). fold Z.
  unfold vsub. rewrite (map2_nth nsub _ _ i 0 0 0) by (rewrite ?map_length; lia). cbn [nsub NumR]. ring.
Qed.

Theorem excess_bound L m out : (forall x, In x (mrows X) -> 1 + sqnorm x <= L) -> 0 < L -> log_predict self X = Ok out ->
  (forall q, length q = S (mcols X) -> m <= log_loss X y q) ->
  sumR (S (mcols X)) (fun k => bias X y out k ^ 2) <= L / 2 * (log_loss X y p - m).
Proof.
  intros HL L0 Eo Hm. destruct calib_out as (out' & Eo' & _ & Lg & Hg). rewrite Eo in Eo'. injection Eo' as <-.
  assert (Sm : smooth (S (mcols X)) (lg_cost Z y) (lg_grad Z y) (L / 4)).
  { assert (WZ : mwf (with_ones X)) by now apply with_ones_wf. apply (lg_smooth Z); unfold Z; rewrite ?with_ones_nrows; auto. apply rows_bound; auto. }
  destruct (Sm p Lp) as [_ S2]. fold g in S2. set (q := vsub p (vscale (4 / L) g)).
  assert (Lq : length q = S (mcols X)) by (unfold q; rewrite vsub_len'; rewrite ?vscale_length; lia).
  specialize (S2 q Lq). specialize (Hm q Lq). rewrite (log_loss_cost X y q) in Hm by auto. rewrite (log_loss_cost X y p) by auto. fold Z in Hm |- *.
  assert (Ed : vsub q p = vscale (- (4 / L)) g).
  { apply (nth_ext _ _ 0 0); [rewrite vsub_len', vscale_length by lia; lia|]. intros i Hi. rewrite vsub_len' in Hi by lia.
    unfold q, vsub, vscale. rewrite (map2_nth nsub _ _ i 0 0 0); [|rewrite map2_length, map_length; lia|lia].
    rewrite (map2_nth nsub _ _ i 0 0 0); [|lia|rewrite map_length; lia]. rewrite !(nth_map _ g i 0 0) by lia. cbn. ring. }
  rewrite Ed in S2. rewrite (dot_comm g), !dot_vscale_l, (dot_comm g (vscale _ g)), dot_vscale_l in S2.
  assert (Es2 : sumR (S (mcols X)) (fun k => bias X y out k ^ 2) = dot g g).
  { rewrite (dot_sumR (S (mcols X))) by auto. apply sumR_ext. intros k Hk. rewrite Hg by lia. ring. }
  rewrite Es2. cbn [nmul NumR] in S2.
  assert (Q : - (4 / L) * dot g g + L / 4 / 2 * (- (4 / L) * (- (4 / L) * dot g g)) = - (2 / L) * dot g g) by (field; lra).
  assert (K : 2 / L * dot g g <= lg_cost Z y p - m) by lra.
  apply Rmult_le_compat_l with (r := L / 2) in K; [|lra]. replace (L / 2 * (2 / L * dot g g)) with (dot g g) in K by (field; lra). exact K.
Qed.

Theorem best_balances : exists out, log_predict self X = Ok out /\ length out = nrows X /\ (best_fit X y p <-> balances X y out).
Proof.
  destruct calib_out as (out & Eo & Lo & Lg & Hg). exists out. split; [exact Eo|]. split; [exact Lo|]. rewrite bias_balances by exact Hn. split.
  - intros [_ B] k Hk.
    set (L := 1 + sumR (nrows X) (fun i => sqnorm (nth i (mrows X) []))).
    assert (P : forall i, (i < nrows X)%nat -> 0 <= sqnorm (nth i (mrows X) [])).
    { intros i _. unfold sqnorm. apply sumR_ge0. intros; apply pow2_ge_0. }
    assert (L0 : 0 < L) by (pose proof (sumR_ge0 (nrows X) (fun i => sqnorm (nth i (mrows X) [])) P); unfold L; lra).
    assert (HL : forall x, In x (mrows X) -> 1 + sqnorm x <= L).
    { intros x Hx. destruct (In_nth _ _ [] Hx) as (i & Hi & <-). unfold L. apply Rplus_le_compat_l.
      apply (sumR_ge_term (nrows X) (fun i => sqnorm (nth i (mrows X) [])) i); auto. }
    pose proof (excess_bound L (log_loss X y p) out HL L0 Eo B) as E. replace (log_loss X y p - log_loss X y p) with 0 in E by ring. rewrite Rmult_0_r in E.
    assert (Q : bias X y out k ^ 2 <= 0).
    { eapply Rle_trans; [|exact E]. apply (sumR_ge_term (S (mcols X)) (fun k => bias X y out k ^ 2) k); [|lia]. intros; apply pow2_ge_0. }
    nra.
  - intros B. split; [exact Lp|]. intros q Lq. rewrite !log_loss_cost by auto. fold Z.
    pose proof (lg_convex Z y ltac:(now apply with_ones_wf) ltac:(unfold Z; now rewrite with_ones_nrows) ltac:(unfold Z; now rewrite with_ones_nrows) p q Lp Lq) as C.
    assert (G0 : dot (lg_grad Z y p) (vsub q p) = 0).
    { rewrite (dot_sumR (S (mcols X))) by (auto; rewrite vsub_len'; lia). apply sumR_zero. intros k Hk. fold g. rewrite Hg, B by lia. ring. }
    lra.
Qed.
End Logistic.

Lemma loss_ge0 X y z : mwf X -> (0 < nrows X)%nat -> length y = nrows X -> labels y -> length z = S (mcols X) -> 0 <= log_loss X y z.
Proof.
  intros W Hn Ly Hy Lz. rewrite log_loss_cost by auto. unfold lg_cost. rewrite with_ones_nrows. apply Rmult_le_pos; [|left; apply Rinv_0_lt_compat, lt_0_INR; auto].
  apply sumR_ge0. intros i Hi. set (t := nth i (mat_vec (with_ones X) z) 0). unfold sp. pose proof (exp_pos t) as Pt.
  assert (0 <= ln (1 + exp t)). { rewrite <- ln_1. apply Rlt_le, ln_increasing; lra. }
  assert (t <= ln (1 + exp t)). { rewrite <- (ln_exp t) at 1. apply Rlt_le, ln_increasing; lra. }
  destruct (Hy i) as [->| ->]; [lia| |]; lra.
Qed.
Theorem training_balances X y z : mwf X -> (0 < nrows X)%nat -> length y = nrows X -> labels y -> best_fit X y z ->
  forall gd (self : LogisticRegressor R) L, (forall x, In x (mrows X) -> 1 + sqnorm x <= L) -> 0 < gd_alpha gd -> gd_alpha gd * L <= 4 -> (0 < gd_iters gd)%nat ->
  exists self' out, log_train (gd_optimize gd) self X y = (self', Ok tt) /\ log_predict self' X = Ok out /\
    let D := dist2 (repeat (1 / 2) (S (mcols X))) z in
    let S := sumR (S (mcols X)) (fun k => bias X y out k ^ 2) in
    (S <= L / 2 * (D / (2 * gd_alpha gd * INR (gd_iters gd))) \/ S <= L / 2 * (sqrt (2 * / 10 ^ 20 / gd_alpha gd) * sqrt D) \/ S <= L / 2 * / 10 ^ 20).
Proof.
  intros W Hn Ly Hy [Lz Bz] gd self L HL A0 A1 T0.
  destruct (log_gd_rate gd self X y L W Hn Ly HL A0 A1) as (self' & p & Et & Ep & Lp & _ & Hr).
  destruct (calib_out X y W Hn Ly self' p Lp Ep) as (out & Eo & _ & _ & _).
  exists self', out. split; [exact Et|]. split; [exact Eo|]. cbv zeta. set (D := dist2 _ z).
  assert (L0 : 0 < L).
  { unfold nrows in Hn. destruct (mrows X) as [|x l] eqn:Ex; [cbn in Hn; lia|]. specialize (HL x (or_introl eq_refl)).
    assert (0 <= sqnorm x) by (unfold sqnorm; apply sumR_ge0; intros; apply pow2_ge_0). lra. }
  pose proof (excess_bound X y W Hn Ly self' p Lp Ep L (log_loss X y z) out HL L0 Eo Bz) as E.
  specialize (Hr z Lz). cbv zeta in Hr.
  assert (ED : sumR (S (mcols X)) (fun j => (1 / 2 - nth j z 0) ^ 2) = D).
  { unfold D, dist2. rewrite repeat_length. apply sumR_ext. intros j Hj. now rewrite nth_repeat_lt by exact Hj. }
  rewrite ED in Hr. set (f := log_loss X y p - log_loss X y z) in *.
  destruct Hr as [Hr|[Hr|Hr]].
  - left. eapply Rle_trans; [exact E|]. apply Rmult_le_compat_l; [lra|]. pose proof (lt_0_INR _ T0) as T1.
    assert (P : 0 < 2 * gd_alpha gd * INR (gd_iters gd)) by (apply Rmult_lt_0_compat; lra).
    apply Rmult_le_reg_l with (1 := P). replace (2 * gd_alpha gd * INR (gd_iters gd) * (D / (2 * gd_alpha gd * INR (gd_iters gd)))) with D by (field; lra). exact Hr.
  - right. left. eapply Rle_trans; [exact E|]. apply Rmult_le_compat_l; lra.
  - right. right. eapply Rle_trans; [exact E|]. apply Rmult_le_compat_l; [lra|].
    pose proof (loss_ge0 X y z W Hn Ly Hy Lz).
    unfold f. lra.
Qed.

(** ** Generalized linear models *)
Lemma fixed_balances inverse cr X y mu z w b : inverse_sound inverse -> mwf X -> length y = nrows X ->
  cr_working_weight cr mu = Ok w -> length w = nrows X -> length z = nrows X ->
  glm_pass inverse cr (with_ones X) y mu z = Ok (b, mu, z) -> length (cr_y_bar cr y mu) = nrows X ->
  (forall i, (i < nrows X)%nat -> nth i w 0 * nth i (cr_y_bar cr y mu) 0 = nth i y 0 - nth i mu 0) ->
  glm_predict cr {| glm_parameters := Some b |} X = Ok mu /\ balances X y mu.
Proof.
  intros Si W Ly Ew Lw Lz P Lyb Sc. destruct (fixed_point_score _ _ _ _ _ _ _ _ Si W Ly Ew Lw Lz P Lyb) as [Lb [Em O]].
  split. { unfold glm_predict. cbn [glm_parameters]. rewrite rmat_vec_eq by exact Lb. cbn [rbind]. now rewrite <- Em. }
  intros k Hk. specialize (O (map (fun j => if (j =? k)%nat then 1 else 0) (seq 0 (S (mcols X))))). rewrite map_length, seq_length in O. specialize (O eq_refl).
  apply Rminus_diag_uniq. rewrite <- sumR_minus. apply Ropp_eq_0_compat in O. rewrite Ropp_0 in O || idtac.
  refine (eq_trans _ O). rewrite <- (Rmult_1_l (sumR (nrows X) (fun i => nth i w 0 * _ * _))), Ropp_mult_distr_l, <- sumR_scal. apply sumR_ext. intros i Hi.
  rewrite Sc by auto. rewrite mat_vec_nth; [|now apply with_ones_wf|rewrite map_length, seq_length; reflexivity|now rewrite with_ones_nrows].
  assert (Ek : sumR (mcols (with_ones X)) (fun j => entry (with_ones X) i j * nth j (map (fun j => if (j =? k)%nat then 1 else 0) (seq 0 (S (mcols X)))) 0) = feature X i k).
  { rewrite (feature_entry X i k Hi). change (mcols (with_ones X)) with (S (mcols X)).
    rewrite (sumR_single (S (mcols X)) _ k); [|lia|].
    - rewrite nth_map_seq by lia. rewrite Nat.eqb_refl. ring.
    - intros j Hj Hne. rewrite nth_map_seq by lia. apply Nat.eqb_neq in Hne. rewrite Hne. ring. }
  rewrite Ek. ring.
Qed.
Theorem normal_balances inverse X y mu z b : inverse_sound inverse -> mwf X -> length y = nrows X -> length mu = nrows X -> length z = nrows X ->
  glm_pass inverse Normal (with_ones X) y mu z = Ok (b, mu, z) -> glm_predict Normal {| glm_parameters := Some b |} X = Ok mu /\ balances X y mu.
Proof.
  intros Si W Ly Lm Lz P.
  apply (fixed_balances inverse Normal X y mu z (repeat 1 (length mu)) b); auto.
  - cbn [cr_working_weight Normal]. now rewrite normal_weight.
  - now rewrite repeat_length.
  - cbn [cr_y_bar Normal]. unfold default_y_bar. rewrite ybar_length; lia.
  - intros i Hi. rewrite nth_repeat_lt by lia. cbn [cr_y_bar Normal]. unfold default_y_bar. rewrite ybar_nth by lia. cbn. ring.
Qed.
Theorem poisson_balances inverse X y mu z b : inverse_sound inverse -> mwf X -> length y = nrows X -> length mu = nrows X -> length z = nrows X ->
  glm_pass inverse Poisson (with_ones X) y mu z = Ok (b, mu, z) -> glm_predict Poisson {| glm_parameters := Some b |} X = Ok mu /\ balances X y mu.
Proof.
  intros Si W Ly Lm Lz P. pose proof (fixed_mu_length _ _ _ _ _ _ _ P) as Em.
  apply (fixed_balances inverse Poisson X y mu z mu b); auto.
  - cbn [cr_y_bar Poisson]. unfold default_y_bar. rewrite ybar_length; lia.
  - intros i Hi. cbn [cr_y_bar Poisson]. unfold default_y_bar. rewrite ybar_nth by lia. cbn [lk_grad Log nmul nsub ndiv nonev NumR].
    assert (nth i mu 0 <> 0).
    { rewrite Em. cbn [lk_inv cr_link Poisson Log nexp NumFnR]. rewrite (nth_map exp _ _ _ 0).
      apply Rgt_not_eq, exp_pos. rewrite mat_vec_length', with_ones_nrows. auto. }
    now field.
Qed.
