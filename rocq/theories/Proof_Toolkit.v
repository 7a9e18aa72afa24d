(** * Activation functions and regularisers *)
From Coq Require Import List Arith Lia Bool Reals Lra.
From Coquelicot Require Import Coquelicot.
From Verif Require Import Base BaseLemmas Num NumFn Linalg LinalgR Spec_Calc CalcR Model_Toolkit Spec_Toolkit.
Import ListNotations.
Local Open Scope R_scope.
Ltac req := match goal with |- ?a = ?b => change (@eq R a b) end.

(** ** Activation *)
Lemma sigmoid_R x : sigmoid x = / (1 + exp (- x)).
Proof. unfold sigmoid. cbn [ndiv nonev nadd nexp nopp NumR NumFnR]. unfold Rdiv. ring. Qed.
Lemma sigmoid_range x : 0 < sigmoid x < 1.
Proof.
  rewrite sigmoid_R. pose proof (exp_pos (- x)). split; [apply Rinv_0_lt_compat; lra|].
  rewrite <- Rinv_1. apply Rinv_lt_contravar; lra.
Qed.
Lemma sigmoid_incr : increasing_on_R sigmoid.
Proof.
  intros x y H. rewrite !sigmoid_R. pose proof (exp_pos (- x)). pose proof (exp_pos (- y)). apply Rinv_lt_contravar; [nra|].
  assert (exp (- y) < exp (- x)) by (apply exp_increasing; lra). lra.
Qed.
Lemma sigmoid_deriv x : derivable_pt_lim sigmoid x (sigmoid x * (1 - sigmoid x)).
Proof.
  apply (dlim_ext (fun x => / (1 + exp (- x)))); [intros; now rewrite sigmoid_R|]. apply is_derive_Reals. rewrite sigmoid_R.
  pose proof (exp_pos (- x)). auto_derive; [lra|]. field. lra.
Qed.
Lemma sigmoid_inv (x : R) : af_inv Sigmoid (sigmoid x) = x.
Proof.
  cbn [af_inv Sigmoid nln ndiv nsub nonev NumR NumFnR]. rewrite sigmoid_R. pose proof (exp_pos (- x)).
  replace (/ (1 + exp (- x)) / (1 - / (1 + exp (- x)))) with (exp x).
  - apply ln_exp.
  - rewrite exp_Ropp in *. pose proof (exp_pos x). field. lra.
Qed.
Lemma sigmoid_inv_r y : 0 < y < 1 -> sigmoid (af_inv Sigmoid y) = y.
Proof.
  intros H. cbn [af_inv Sigmoid nln ndiv nsub nonev NumR NumFnR]. rewrite sigmoid_R, exp_Ropp, exp_ln by (apply Rdiv_lt_0_compat; lra). field. lra.
Qed.

Lemma tanh_exp x : tanh x = 1 - 2 / (exp (2 * x) + 1).
Proof.
  unfold tanh, sinh, cosh. rewrite exp_Ropp. pose proof (exp_pos x). replace (exp (2 * x)) with (exp x * exp x) by (rewrite <- exp_plus; f_equal; ring).
  assert (0 < exp x * exp x) by nra. field. repeat split; try lra. 
Qed.
Lemma tanh_range x : -1 < tanh x < 1.
Proof.
  rewrite tanh_exp. pose proof (exp_pos (2 * x)). assert (0 < 2 / (exp (2 * x) + 1) < 2).
  { split; [apply Rdiv_lt_0_compat; lra|]. apply (Rmult_lt_reg_r (exp (2 * x) + 1)); [lra|]. unfold Rdiv. rewrite Rmult_assoc, Rinv_l; lra. }
  lra.
Qed.
Lemma tanh_incr : increasing_on_R tanh.
Proof.
  intros x y H. rewrite !tanh_exp. assert (exp (2 * x) < exp (2 * y)) by (apply exp_increasing; lra). pose proof (exp_pos (2 * x)).
  assert (/ (exp (2 * y) + 1) < / (exp (2 * x) + 1)) by (apply Rinv_lt_contravar; nra). unfold Rdiv. lra.
Qed.
Lemma tanh_deriv x : derivable_pt_lim tanh x (1 - tanh x * tanh x).
Proof.
  apply (dlim_ext (fun x => 1 - 2 / (exp (2 * x) + 1))); [intros; now rewrite tanh_exp|]. apply is_derive_Reals. rewrite tanh_exp.
  pose proof (exp_pos (2 * x)). auto_derive; [lra|]. field. lra.
Qed.
Lemma tanh_inv (x : R) : af_inv Tanh (tanh x) = x.
Proof.
  cbn [af_inv Tanh nln ndiv nsub nadd nmul nonev NumR NumFnR]. rewrite tanh_exp. pose proof (exp_pos (2 * x)).
  replace ((1 + (1 - 2 / (exp (2 * x) + 1))) / (1 - (1 - 2 / (exp (2 * x) + 1)))) with (exp (2 * x)) by (field; repeat split; lra).
  rewrite ln_exp. field.
Qed.
Lemma tanh_inv_r y : -1 < y < 1 -> tanh (af_inv Tanh y) = y.
Proof.
  intros H. cbn [af_inv Tanh nln ndiv nsub nadd nmul nonev NumR NumFnR]. rewrite tanh_exp.
  replace (2 * (1 / (1 + 1) * ln ((1 + y) / (1 - y)))) with (ln ((1 + y) / (1 - y))) by field.
  rewrite exp_ln by (apply Rdiv_lt_0_compat; lra). field. repeat split; lra.
Qed.

Theorem sigmoid_ok :
  (forall x, derivable_pt_lim (af Sigmoid) x (af_grad Sigmoid x)) /\ (forall x : R, af_grad_out Sigmoid (af Sigmoid x) = af_grad Sigmoid x) /\
  (forall x : R, af_inv Sigmoid (af Sigmoid x) = x) /\ (forall y, 0 < y < 1 -> af Sigmoid (af_inv Sigmoid y) = y) /\
  (forall x, 0 < af Sigmoid x < 1) /\ increasing_on_R (af Sigmoid).
Proof.
  repeat split; try (apply sigmoid_range).
  - intros x. apply sigmoid_deriv.
  - intros x. apply sigmoid_inv.
  - intros y. apply sigmoid_inv_r.
  - apply sigmoid_incr.
Qed.
Theorem tanh_ok :
  (forall x, derivable_pt_lim (af Tanh) x (af_grad Tanh x)) /\ (forall x : R, af_grad_out Tanh (af Tanh x) = af_grad Tanh x) /\
  (forall x : R, af_inv Tanh (af Tanh x) = x) /\ (forall y, -1 < y < 1 -> af Tanh (af_inv Tanh y) = y) /\
  (forall x, -1 < af Tanh x < 1) /\ increasing_on_R (af Tanh).
Proof.
  repeat split; try (apply tanh_range).
  - intros x. apply tanh_deriv.
  - intros x. apply tanh_inv.
  - intros y. apply tanh_inv_r.
  - apply tanh_incr.
Qed.
Theorem exp_ok :
  (forall x, derivable_pt_lim (af Exp) x (af_grad Exp x)) /\ (forall x : R, af_grad_out Exp (af Exp x) = af_grad Exp x) /\
  (forall x : R, af_inv Exp (af Exp x) = x) /\ (forall y, 0 < y -> af Exp (af_inv Exp y) = y) /\
  (forall x, 0 < af Exp x) /\ increasing_on_R (af Exp).
Proof.
  repeat split.
  - intros x. apply derivable_pt_lim_exp.
  - intros x. apply ln_exp.
  - intros y. apply exp_ln.
  - intros x. apply exp_pos.
  - intros x y. apply exp_increasing.
Qed.
Theorem linear_ok :
  (forall x, derivable_pt_lim (af (F := R) LinearAct) x (af_grad LinearAct x)) /\ (forall x : R, af_grad_out LinearAct (af LinearAct x) = af_grad LinearAct x) /\
  (forall x : R, af_inv LinearAct (af LinearAct x) = x) /\ (forall y : R, af LinearAct (af_inv LinearAct y) = y) /\ increasing_on_R (af LinearAct).
Proof.
  repeat split.
  - intros x. apply derivable_pt_lim_id.
  - intros x y H. exact H.
Qed.

(** ** Regularisation *)
Lemma map2_fst {A B C} (f : A -> C) (l : list A) : forall l' : list B, length l = length l' -> map2 (fun a _ => f a) l l' = map f l.
Proof. induction l as [|x l IH]; intros [|y l'] E; cbn in *; try discriminate; auto. f_equal. apply IH. lia. Qed.
Lemma msumf_mset_map (f : R -> R) m i j x : mwf m -> (i < nrows m)%nat -> (j < mcols m)%nat ->
  msumf (mmap f (mset m i j x)) = msumf (mmap f m) - f (entry m i j) + f x.
Proof.
  intros W Hi Hj. pose proof (msumf_mset_zip (fun a _ => f a) m m i j x W W eq_refl eq_refl Hi Hj) as Q.
  assert (E : forall a, nrows a = nrows m -> mwf a -> mcols a = mcols m -> mzip (fun a _ => f a) a m = mmap f a).
  { intros a La Wa Ca. unfold mzip, mmap. f_equal. unfold mwf, nrows in *. revert La Wa. generalize (mrows a). rewrite Ca. clear Q Hi. revert W. generalize (mrows m). clear a Ca.
    intros l; induction l as [|r l IH]; intros W [|r' l'] La Wa; cbn in *; try discriminate; auto. inversion W; inversion Wa; subst. f_equal; [|apply IH; auto].
    apply map2_fst; congruence. }
  rewrite !E in Q; auto using mset_nrows, mset_cols, mset_wf.
Qed.
Lemma mmap_entry (f : R -> R) m i j : mwf m -> (i < nrows m)%nat -> (j < mcols m)%nat -> entry (mmap f m) i j = f (entry m i j).
Proof.
  intros W Hi Hj. unfold entry, mmap. cbn [mrows]. rewrite (nth_indep _ [] (map f [])) by (now rewrite map_length). rewrite map_nth.
  rewrite (nth_indep _ 0 (f 0)) by (rewrite map_length, wf_row; auto). apply map_nth.
Qed.

Lemma rabs_deriv x : x <> 0 -> derivable_pt_lim Rabs x (if Rlt_dec x 0 then -1 else 1).
Proof.
  intros H. destruct (Rlt_dec x 0); [now apply Rabs_derive_2|]. apply Rabs_derive_1. lra.
Qed.
Lemma two_rows_R (m : matrix R) : two_rows m = 2 * INR (nrows m).
Proof. unfold two_rows. cbn. lra. Qed.

Lemma l1_partial m x i j : mwf m -> (i < nrows m)%nat -> (j < mcols m)%nat -> entry m i j <> 0 ->
  has_partial (fun w => Ok (l1_reg_cost w x)) m i j (entry (l1_reg_grad m x) i j).
Proof.
  intros W Hi Hj NZ. assert (RP : 0 < INR (nrows m)) by (apply lt_0_INR; lia).
  exists (fun y => (msumf (mmap Rabs m) - Rabs (entry m i j) + Rabs y) * x / (2 * INR (nrows m))). split.
  - intros y. f_equal. unfold l1_reg_cost, l1_norm. rewrite msum_R, two_rows_R, mset_nrows. cbn [nabs nmul ndiv NumR]. now rewrite msumf_mset_map.
  - unfold l1_reg_grad. rewrite mmap_entry by auto. rewrite two_rows_R. cbn [nltb nzero NumR ndiv nopp].
    pose proof (rabs_deriv _ NZ) as D. apply (is_derive_Reals (fun y => _)). apply is_derive_Reals in D.
    apply (is_derive_ext (fun y => (x / (2 * INR (nrows m))) * Rabs y + (msumf (mmap Rabs m) - Rabs (entry m i j)) * x / (2 * INR (nrows m)))).
    { intros t. req. field. lra. }
    replace (if if Rlt_dec (entry m i j) 0 then true else false then - x / (2 * INR (nrows m)) else x / (2 * INR (nrows m)))
      with ((x / (2 * INR (nrows m))) * (if Rlt_dec (entry m i j) 0 then -1 else 1) + 0) by (destruct (Rlt_dec (entry m i j) 0); field; lra).
    apply (is_derive_plus (fun y => (x / (2 * INR (nrows m))) * Rabs y)); [|apply @is_derive_const].
    apply (is_derive_scal Rabs). exact D.
Qed.
Lemma none_partial m i j : mwf m -> (i < nrows m)%nat -> (j < mcols m)%nat ->
  has_partial (fun w => Ok (reg_cost RegNone w)) m i j (entry (reg_grad RegNone m) i j).
Proof.
  intros W Hi Hj. exists (fun _ => 0). split; auto. cbn [reg_grad]. rewrite mmap_entry by auto. apply derivable_pt_lim_const.
Qed.
Lemma sq_norm_sum m : mwf m -> msumf (mmap (fun y => y * y) m) = sq_norm m.
Proof.
  intros W. unfold msumf, sq_norm, mmap. cbn [mrows]. rewrite map_map. unfold nrows, entry. unfold mwf in W.
  destruct m as [rows w]. cbn [mrows mcols] in *.
  rewrite rsum_nth, map_length. apply sumR_ext. intros i Hi.
  rewrite (nth_indep _ 0 (rsum (map (fun y => y * y) []))) by (now rewrite map_length). rewrite (map_nth (fun r => rsum (map (fun y => y * y) r))).
  rewrite rsum_nth, map_length. rewrite Forall_forall in W. rewrite (W (nth i rows [])) by (now apply nth_In). apply sumR_ext. intros j Hj.
  rewrite (nth_indep _ 0 ((fun y => y * y) 0)) by (rewrite map_length, (W (nth i rows [])); auto; now apply nth_In). rewrite (map_nth (fun y => y * y)). ring.
Qed.
Lemma l2_partial_sq m x i j : mwf m -> (i < nrows m)%nat -> (j < mcols m)%nat ->
  has_partial (fun w => Ok (sq_norm w * x / (2 * INR (nrows w)))) m i j (entry (l2_reg_grad m x) i j).
Proof.
  intros W Hi Hj. assert (RP : 0 < INR (nrows m)) by (apply lt_0_INR; lia).
  exists (fun y => (sq_norm m - entry m i j ^ 2 + y ^ 2) * x / (2 * INR (nrows m))). split.
  - intros y. f_equal. rewrite mset_nrows. rewrite <- !sq_norm_sum by auto using mset_wf. rewrite msumf_mset_map by auto. f_equal. f_equal. ring.
  - unfold l2_reg_grad. rewrite mmap_entry by auto. cbn [nmul ndiv nofnat NumR]. apply (is_derive_Reals (fun y => _)). auto_derive; auto. field. lra.
Qed.
Lemma Ok_inj {A} (a b : A) : Ok a = Ok b -> a = b. Proof. congruence. Qed.
(** The Euclidean norm itself is not differentiated by [l2_reg_grad]. *)
Lemma l2_norm_value (w x : R) : reg_cost (RegL2 x) (Mat [[w]] 1) = Rabs w * x / 2.
Proof.
  cbn [reg_cost]. unfold l2_reg_cost, fro_norm. rewrite two_rows_R. rewrite msum_R. unfold msumf, mzip, nrows. cbn [mrows map map2 rsum length nsqrt nmul ndiv NumR].
  replace (w * w + 0 + 0) with (w * w) by ring. change (INR 1) with 1. rewrite <- sqrt_Rsqr_abs. unfold Rsqr. field.
Qed.
Theorem l2_not_derivative : exists (m : matrix R) x, 0 < x /\ mwf m /\ nrows m = 1%nat /\ mcols m = 1%nat /\ entry m 0 0 <> 0 /\
  ~ has_partial (fun w => Ok (reg_cost (RegL2 x) w)) m 0 0 (entry (reg_grad (RegL2 x) m) 0 0) /\
  ~ has_partial (fun w => Ok (reg_cost (RegElasticNet 0 x) w)) m 0 0 (entry (reg_grad (RegElasticNet 0 x) m) 0 0).
Proof.
  exists (Mat [[2]] 1), 1. split; [lra|]. split; [repeat constructor|]. split; [reflexivity|]. split; [reflexivity|]. split; [unfold entry; cbn; lra|].
  assert (D : derivable_pt_lim (fun w => Rabs w * 1 / 2) 2 (1/2)).
  { pose proof (Rabs_derive_1 2 ltac:(lra)) as D. apply (is_derive_Reals (fun y => _)). apply is_derive_Reals in D.
    apply (is_derive_ext (fun y => (1/2) * Rabs y)); [intros; req; field|]. assert (Q : is_derive (fun y => (1/2) * Rabs y) 2 ((1/2) * 1)) by (now apply (is_derive_scal Rabs)). now rewrite Rmult_1_r in Q. }
  split; intros (c & Hc & Dc).
  - assert (Ec : forall y, Rabs y * 1 / 2 = c y).
    { intros y. pose proof (Ok_inj _ _ (Hc y)) as Q. rewrite <- Q. symmetry. exact (l2_norm_value y 1). }
    apply (dlim_ext _ c) in D; auto. pose proof (uniqueness_limite _ _ _ _ D Dc) as Q.
    unfold entry in Q. cbn in Q. lra.
  - assert (Ec : forall y, Rabs y * 1 / 2 = c y).
    { intros y. pose proof (Ok_inj _ _ (Hc y)) as Q. rewrite <- Q. change (mset (Mat [[2]] 1) 0 0 y) with (Mat [[y]] 1). change (reg_cost (RegElasticNet 0 1) (Mat [[y]] 1)) with (l1_reg_cost (Mat [[y]] 1) 0 + reg_cost (RegL2 1) (Mat [[y]] 1)).
      rewrite l2_norm_value. unfold l1_reg_cost. cbn [nmul ndiv NumR]. unfold Rdiv. ring. }
    apply (dlim_ext _ c) in D; auto. pose proof (uniqueness_limite _ _ _ _ D Dc) as Q.
    unfold entry in Q. cbn in Q. destruct (Rlt_dec 2 0); lra.
Qed.
Lemma has_partial_plus (f g h : matrix R -> R) m i j d e : (forall w, h w = f w + g w) ->
  has_partial (fun w => Ok (f w)) m i j d -> has_partial (fun w => Ok (g w)) m i j e -> has_partial (fun w => Ok (h w)) m i j (d + e).
Proof.
  intros E (c1 & A1 & B1) (c2 & A2 & B2). exists (fun y => c1 y + c2 y). split.
  - intros y. rewrite E. f_equal. now rewrite (Ok_inj _ _ (A1 y)), (Ok_inj _ _ (A2 y)).
  - apply (derivable_pt_lim_plus c1 c2); auto.
Qed.
Lemma elastic_partial_sq m x y i j : mwf m -> (i < nrows m)%nat -> (j < mcols m)%nat -> entry m i j <> 0 ->
  has_partial (fun w => Ok (l1_reg_cost w x + sq_norm w * y / (2 * INR (nrows w)))) m i j (entry (reg_grad (RegElasticNet x y) m) i j).
Proof.
  intros W Hi Hj NZ.
  assert (E : entry (reg_grad (RegElasticNet x y) m) i j = entry (l1_reg_grad m x) i j + entry (l2_reg_grad m y) i j).
  { cbn [reg_grad]. unfold l1_reg_grad, l2_reg_grad. rewrite !mmap_entry by auto. unfold entry at 1. unfold mzip, mmap. cbn [mrows].
    rewrite (map2_nth _ _ _ _ [] []) by (now rewrite map_length).
    rewrite (map2_nth _ _ _ _ 0 0).
    2, 3: rewrite (nth_map _ _ _ _ []), map_length, wf_row; auto.
    pose proof (mmap_entry (fun y0 : R => if (y0 <? nzero)%num then (- x / two_rows m)%num else (x / two_rows m)%num) m i j W Hi Hj) as Q1.
    pose proof (mmap_entry (fun y0 : R => (y0 * (y / nofnat (nrows m)))%num) m i j W Hi Hj) as Q2.
    unfold entry at 1 in Q1. unfold entry at 1 in Q2. unfold mmap in Q1, Q2. cbn [mrows] in Q1, Q2. rewrite Q1, Q2. reflexivity. }
  rewrite E. apply (has_partial_plus (fun w => l1_reg_cost w x) (fun w => sq_norm w * y / (2 * INR (nrows w)))); auto using l1_partial, l2_partial_sq.
Qed.
