(** * Concrete cases: one training set in two units *)
From Coq Require Import List Arith Reals Lra Lia Bool.
From Verif Require Import Base BaseLemmas Num NumFn Linalg LinalgR Spec_Calc CalcR MatR Model_Regression Spec_Regression Proof_Regression Model_GLM Spec_GLM Proof_GLM Proof_GLM2 Proof_GLMEx Spec_Equiv Proof_Equiv Spec_GLMFrame Proof_GLMFrame.
Import ListNotations.
Local Open Scope R_scope.

(** The two rows of [X01] as 10 and 99999999990. *)
Definition other_units : list (R * R) := [(99999999980, 10)].
Definition Xbig : matrix R := map_rows (new_units other_units) 1 X01.
Lemma Xbig_rows : Xbig = Mat [[10]; [99999999990]] 1.
Proof. unfold Xbig, map_rows, new_units, other_units, X01. cbn. repeat f_equal; lra. Qed.
Lemma other_affine : same_affine 1 1 (new_units other_units).
Proof. apply units_affine; [reflexivity|]. repeat constructor. cbn. lra. Qed.

Notation eps := (/ 10000000000).
Lemma tiny10 : @tiny R NumR 10 = eps. Proof. rewrite tiny_R. cbn [pow]. lra. Qed.
Lemma tiny5 : @tiny R NumR 5 = / 100000. Proof. rewrite tiny_R. cbn [pow]. lra. Qed.
Lemma tiny15 : @tiny R NumR 15 = / 1000000000000000. Proof. rewrite tiny_R. cbn [pow]. lra. Qed.
Lemma init01 : bern_mu [0; 1] = [eps; 1 - eps].
Proof.
  unfold bern_mu. cbn [map]. rewrite !tiny10. cbn [nsub nonev NumR].
  assert (A : nltb 0 eps = true) by (apply Proof_KMeans.nltb_R'; lra). rewrite A.
  assert (B : nltb 1 eps = false) by (apply Proof_KMeans.nltb_R_false; lra). rewrite B.
  assert (C : nltb (1 - eps) 1 = true) by (apply Proof_KMeans.nltb_R'; lra). rewrite C. reflexivity.
Qed.
Lemma variance_pos m : 0 < m < 1 -> 0 < @bern_variance R NumR m.
Proof.
  intros H. unfold bern_variance. rewrite tiny10. cbn [nmul nsub nonev nabs NumR]. destruct (nltb _ _); [lra|]. apply Rmult_lt_0_compat; lra.
Qed.
Lemma weight_pos m : 0 < m < 1 -> 0 < clip_weight (@bern_variance R NumR m).
Proof. intros H. pose proof (variance_pos m H). unfold clip_weight. rewrite tiny5. destruct (nltb _ _); lra. Qed.
Lemma ybar_neg m : 0 < m < 1 -> (let d := 0 - m in if nltb (nabs d) (tiny 15) then 0 else lk_grad Logit m * d) <= 0.
Proof.
  intros H. cbv zeta. destruct (nltb _ _); [lra|]. cbn [lk_grad Logit ndiv nonev nmul nsub NumR].
  assert (0 < 1 / (m * (1 - m))) by (apply Rdiv_lt_0_compat; [lra|]; apply Rmult_lt_0_compat; lra). nra.
Qed.
Lemma logistic_half t : t < 0 -> lk_inv (@Logit R NumR NumFnR) t < 1 / 2.
Proof.
  intros H. cbn [lk_inv Logit ndiv nonev nadd nopp NumR nexp NumFnR]. assert (1 < exp (- t)) by (rewrite <- exp_0; apply exp_increasing; lra).
  apply (Rmult_lt_reg_r (1 + exp (- t))); [lra|]. unfold Rdiv. rewrite Rmult_assoc, Rinv_l by lra. lra.
Qed.
Lemma logistic_half' t : 0 < t -> 1 / 2 < lk_inv (@Logit R NumR NumFnR) t.
Proof.
  intros H. cbn [lk_inv Logit ndiv nonev nadd nopp NumR nexp NumFnR]. assert (exp (- t) < 1) by (rewrite <- exp_0; apply exp_increasing; lra).
  pose proof (exp_pos (- t)). apply (Rmult_lt_reg_r (1 + exp (- t))); [lra|]. unfold Rdiv. rewrite (Rmult_assoc 1 (/ (1 + _))), Rinv_l by lra. lra.
Qed.
Lemma inv_range t : 0 < lk_inv (@Logit R NumR NumFnR) t < 1. Proof. apply logit_inv_range. Qed.

(** In the units 0 and 1 the first coefficient ends below 0. *)
Lemma loop01 : forall fuel m1 m2 z1 z2 b, 0 < m1 < 1 -> 0 < m2 < 1 -> z1 < 0 -> length b = 2%nat -> nth 0 b 0 < 0 ->
  exists p, glm_loop fuel inverse2 Bernoulli (with_ones X01) [0; 1] [m1; m2] [z1; z2] b = Ok p /\ length p = 2%nat /\ nth 0 p 0 < 0.
Proof.
  induction fuel as [|fuel IH]; intros m1 m2 z1 z2 b H1 H2 Hz Lb Hb; [exists b; auto|]. cbn [glm_loop].
  destruct (pass1 [m1; m2] z1 z2 _ _ Bernoulli (weight_pos m1 H1) (weight_pos m2 H2) eq_refl [0; 1]) as (nb & mu & z & P & Eb & Em & Ez).
  rewrite P. cbn [rbind]. destruct (nltb _ _); [exists nb; subst nb; auto|]. subst.
  cbn [map cr_link Bernoulli cr_y_bar bern_y_bar map2 vadd nadd NumR]. apply IH; auto using inv_range. match goal with |- ?t + z1 < 0 => assert (Y : t <= 0) by exact (ybar_neg m1 H1) end. lra.
Qed.
Lemma loop_S fuel mu z b : glm_loop (S fuel) inverse2 Bernoulli (with_ones X01) [0; 1] mu z b =
  (let? (nb, mu', z') := glm_pass inverse2 Bernoulli (with_ones X01) [0; 1] mu z in
   if nltb (vsum (map nabs (vsub b nb))) (tiny 10) then Ok nb else glm_loop fuel inverse2 Bernoulli (with_ones X01) [0; 1] mu' z' nb).
Proof. reflexivity. Qed.
Lemma loop01' fuel m1 m2 z1 z2 b : 0 < m1 < 1 -> 0 < m2 < 1 -> z1 < 0 ->
  exists p, glm_loop (S fuel) inverse2 Bernoulli (with_ones X01) [0; 1] [m1; m2] [z1; z2] b = Ok p /\ length p = 2%nat /\ nth 0 p 0 < 0.
Proof.
  intros H1 H2 Hz. rewrite loop_S.
  destruct (pass1 [m1; m2] z1 z2 _ _ Bernoulli (weight_pos m1 H1) (weight_pos m2 H2) eq_refl [0; 1]) as (nb & mu & z & P & Eb & Em & Ez).
  rewrite P. cbn [rbind]. destruct (nltb _ _); [exists nb; subst nb; auto|]. subst.
  cbn [map cr_link Bernoulli cr_y_bar bern_y_bar map2 vadd nadd NumR]. apply loop01; auto using inv_range.
  match goal with |- ?t + z1 < 0 => assert (Y : t <= 0) by exact (ybar_neg m1 H1) end. lra.
Qed.
Lemma train01 : exists m p, glm_train inverse2 Bernoulli glm_new X01 [0; 1] = (m, Ok tt) /\ glm_parameters m = Some p /\ length p = 2%nat /\ nth 0 p 0 < 0.
Proof.
  unfold glm_train. change (nrows X01 =? length [0; 1])%nat with true. cbn [negb]. cbn [cr_initialize_mu Bernoulli]. rewrite init01.
  assert (R1 : 0 < eps < 1) by lra. assert (R2 : 0 < 1 - eps < 1) by lra.
  assert (L : exists p, glm_loop 8 inverse2 Bernoulli (with_ones X01) [0; 1] [eps; 1 - eps] [eps; 1 - eps] (repeat nzero (S (mcols X01))) = Ok p /\ length p = 2%nat /\ nth 0 p 0 < 0).
  { rewrite loop_S. destruct (pass1 [eps; 1 - eps] eps (1 - eps) _ _ Bernoulli (weight_pos _ R1) (weight_pos _ R2) eq_refl [0; 1]) as (nb & mu & z & P & Eb & Em & Ez).
    rewrite P. cbn [rbind]. subst nb.
    replace (nltb _ _) with false.
    2:{ symmetry. apply Proof_KMeans.nltb_R_false. rewrite tiny10, diff_pos. cbn [repeat mcols X01 vsub map2 nsub NumR nzero map fold_left].
        rewrite (Rabs_left (0 - eps)), (Rabs_left (0 - (1 - eps - eps))) by lra. lra. }
    assert (Y : nltb (Rabs (0 - eps)) (tiny 15) = false). { apply Proof_KMeans.nltb_R_false. rewrite tiny15, (Rabs_left (0 - eps)) by lra. lra. }
    assert (Z : exists z1 z2, z = [z1; z2] /\ z1 < 0).
    { rewrite Ez. cbn [map cr_y_bar Bernoulli bern_y_bar map2 vadd nadd NumR nsub nabs]. rewrite Y. eexists _, _. split; [reflexivity|].
      cbn [lk_grad Logit ndiv nonev nmul nsub NumR]. replace (1 / (eps * (1 - eps)) * (0 - eps)) with (- / (1 - eps)) by (field; lra).
      assert (1 < / (1 - eps)) by (rewrite <- Rinv_1 at 1; apply Rinv_lt_contravar; lra). lra. }
    destruct Z as (z1 & z2 & -> & Hz). subst mu. cbn [map cr_link Bernoulli]. apply loop01'; auto using inv_range. }
  destruct L as (p & E & Lp & Hp). rewrite E. exists {| glm_parameters := Some p |}, p. auto.
Qed.
(** In the other units training stops after one pass, with intercept 0. *)
Lemma train_big : exists m, glm_train inverse2 Bernoulli glm_new Xbig [0; 1] = (m, Ok tt) /\ glm_parameters m = Some [0; / 100000000000].
Proof.
  unfold glm_train. change (nrows Xbig =? length [0; 1])%nat with true. cbn [negb]. cbn [cr_initialize_mu Bernoulli]. rewrite init01, Xbig_rows.
  assert (R1 : 0 < eps < 1) by lra. assert (R2 : 0 < 1 - eps < 1) by lra. set (Xb := Mat [[10]; [99999999990]] 1).
  assert (P : exists b mu z, glm_pass inverse2 Bernoulli (with_ones Xb) [0; 1] [eps; 1 - eps] [eps; 1 - eps] = Ok (b, mu, z)).
  { unfold glm_pass. cbn [cr_working_weight Bernoulli rbind map]. set (w1 := clip_weight (bern_variance eps)). set (w2 := clip_weight (bern_variance (1 - eps))).
    assert (H1 : 0 < w1) by (apply weight_pos; lra). assert (H2 : 0 < w2) by (apply weight_pos; lra). clearbody w1 w2.
    assert (EA : mat_mul (mat_mul (transpose (with_ones Xb)) (from_diag [w1; w2])) (with_ones Xb) =
      Mat [[w1 + w2; w1 * 10 + w2 * 99999999990]; [w1 * 10 + w2 * 99999999990; w1 * 100 + w2 * 9999999998000000000100]] 2).
    { unfold Xb. expand. apply (f_equal2 Mat); [|reflexivity]. apply (f_equal2 (@cons (list R))); [list_eq; ring|]. apply (f_equal2 (@cons (list R))); [list_eq; ring|reflexivity]. }
    rewrite EA. unfold inverse2. destruct (Req_EM_T _ _) as [D|D]; [exfalso|eauto].
    assert (D' : w1 * w2 * (99999999980 * 99999999980) = 0) by (rewrite <- D; ring). assert (0 < w1 * w2) by (apply Rmult_lt_0_compat; auto). lra. }
  destruct P as (b & mu & z & P).
  destruct (pass_R inverse2 Bernoulli (with_ones Xb) [0; 1] [eps; 1 - eps] [eps; 1 - eps] _ b mu z inverse2_sound ltac:(repeat constructor) eq_refl eq_refl eq_refl P) as (Lb & _ & U & _ & _).
  assert (Eb : [0; / 100000000000] = b).
  { apply U; [reflexivity|]. unfold weighted_normal. f_equal. f_equal. unfold Xb. expand. list_eq; lra. }
  cbn [glm_loop]. rewrite P. cbn [rbind]. rewrite <- Eb. replace (nltb _ _) with true; [eexists; split; reflexivity|].
  symmetry. apply Proof_KMeans.nltb_R'. rewrite tiny10, diff_pos. cbn [repeat mcols Xb vsub map2 nsub NumR nzero map fold_left].
  rewrite (Rabs_left (0 - / 100000000000)) by lra. rewrite Rminus_0_r, Rabs_R0. lra.
Qed.
Theorem units_matter : exists m m' u v, glm_train inverse2 Bernoulli glm_new X01 [0; 1] = (m, Ok tt) /\ glm_train inverse2 Bernoulli glm_new Xbig [0; 1] = (m', Ok tt) /\
  glm_predict Bernoulli m (Mat [[0]] 1) = Ok [u] /\ u < 1 / 2 /\ glm_predict Bernoulli m' (map_rows (new_units other_units) 1 (Mat [[0]] 1)) = Ok [v] /\ 1 / 2 < v.
Proof.
  destruct train01 as (m & p & T & Ep & Lp & Hp). destruct train_big as (m' & T' & Ep'). exists m, m'.
  exists (lk_inv Logit (affine p [0])), (lk_inv Logit (affine [0; / 100000000000] (new_units other_units [0]))). split; [exact T|]. split; [exact T'|].
  split; [|split; [|split]].
  - rewrite (predict_eq Bernoulli m p _ Ep) by repeat constructor. rewrite Lp. reflexivity.
  - apply logistic_half. unfold affine. cbn [length sumR nth]. lra.
  - rewrite (predict_eq Bernoulli m' _ _ Ep') by repeat constructor. reflexivity.
  - apply logistic_half'. unfold affine, new_units, other_units. cbn. lra.
Qed.

(** Poisson regression on the counts 1 and 3, with the feature measured as 1 and 3 instead of 0 and 1. *)
Definition X13 : matrix R := Mat [[1]; [3]] 1.
Lemma X13_rows : map_rows (new_units [(2, 1)]) 1 X01 = X13.
Proof. unfold X13, map_rows, new_units, X01. cbn. repeat f_equal; lra. Qed.
Lemma pass13 mu (z1 z2 w1 w2 : R) cr : 0 < w1 -> 0 < w2 -> cr_working_weight cr mu = Ok [w1; w2] -> forall y,
  exists b mu' z', glm_pass inverse2 cr (with_ones X13) y mu [z1; z2] = Ok (b, mu', z') /\ b = [(3 * z1 - z2) / 2; (z2 - z1) / 2] /\
    mu' = map (lk_inv (cr_link cr)) [z1; z2] /\ z' = vadd (cr_y_bar cr y mu) [z1; z2].
Proof.
  intros P1 P2 E y. unfold glm_pass. rewrite E. cbn [rbind].
  assert (EA : mat_mul (mat_mul (transpose (with_ones X13)) (from_diag [w1; w2])) (with_ones X13) = Mat [[w1 + w2; w1 + 3 * w2]; [w1 + 3 * w2; w1 + 9 * w2]] 2).
  { unfold X13. expand. apply (f_equal2 Mat); [|reflexivity]. apply (f_equal2 (@cons (list R))); [list_eq; ring|]. apply (f_equal2 (@cons (list R))); [list_eq; ring|reflexivity]. }
  rewrite EA. unfold inverse2.
  assert (P : 0 < w1 * w2) by (apply Rmult_lt_0_compat; auto).
  destruct (Req_EM_T _ _) as [D|D]; [exfalso; nra|].
  set (b := mat_vec _ _).
  assert (Eb : b = [(3 * z1 - z2) / 2; (z2 - z1) / 2]).
  { unfold b, X13. expand. list_eq; field; nra. }
  assert (Ef : mat_vec (with_ones X13) b = [z1; z2]).
  { rewrite Eb. unfold X13. expand. list_eq; lra. }
  rewrite Ef. eexists _, _, _. repeat split; auto.
Qed.
Lemma poisson_ex13 self : exists self', glm_train inverse2 Poisson self X13 [1; 3] = (self', Ok tt) /\ glm_parameters self' = Some [0; 1].
Proof.
  unfold glm_train. rewrite poisson_init.
  2:{ intros [|[|i]] Hi; cbn in Hi; try lia; cbn [nth]; apply (Rmult_le_reg_r (10 ^ 10)); try (apply pow_lt; lra); unfold Rdiv; rewrite Rmult_assoc, Rinv_l; try lra. }
  cbn [negb Nat.eqb nrows length X13 mrows]. cbn [glm_loop].
  destruct (pass13 [1; 3] 1 3 1 3 Poisson ltac:(lra) ltac:(lra) eq_refl [1; 3]) as [b [mu [z [P [Eb [Em Ez]]]]]].
  change (Mat [[1]; [3]] 1) with X13. rewrite P. cbn [rbind]. replace ((3 * 1 - 3) / 2) with 0 in Eb by lra. replace ((3 - 1) / 2) with 1 in Eb by lra. subst b.
  assert (Ey : z = [1; 3]). { rewrite Ez. cbn. list_eq; lra. }
  replace (nltb (vsum (map nabs (vsub (repeat nzero (S (mcols X13))) [0; 1]))) (tiny 10)) with false.
  2:{ symmetry. apply Proof_KMeans.nltb_R_false. rewrite tiny_R. rewrite diff_pos. cbn [repeat mcols X13 vsub map2 nsub NumR nzero map fold_left].
      rewrite (Rabs_left (0 - 1)), Rminus_0_r, Rabs_R0 by lra. lra. }
  subst mu z. rewrite Ey.
  assert (Wp : cr_working_weight Poisson (map (lk_inv (cr_link Poisson)) [1; 3]) = Ok [exp 1; exp 3]) by reflexivity.
  destruct (pass13 (map (lk_inv (cr_link Poisson)) [1; 3]) 1 3 (exp 1) (exp 3) Poisson (exp_pos _) (exp_pos _) Wp [1; 3]) as [b [mu [z [P2 [Eb2 _]]]]].
  rewrite P2. cbn [rbind]. replace ((3 * 1 - 3) / 2) with 0 in Eb2 by lra. replace ((3 - 1) / 2) with 1 in Eb2 by lra. subst b. rewrite diff_self.
  replace (nltb 0 (tiny 10)) with true. 2:{ symmetry. apply Proof_KMeans.nltb_R'. apply tiny_pos. }
  eexists. split; reflexivity.
Qed.
