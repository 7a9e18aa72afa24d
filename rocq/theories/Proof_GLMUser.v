(** Lemmas for [Props_GLMUser]. *)
From Coq Require Import List Arith Reals Lra Lia Bool.
From Verif Require Import Base BaseLemmas Num NumFn Linalg LinalgR Spec_Calc CalcR MatR Model_Regression Spec_Regression Proof_Regression Model_GLM Spec_GLM Proof_GLM Proof_GLM2 Proof_GLMEx Model_GLMUser Spec_GLMUser.
Import ListNotations.
Local Open Scope R_scope.

Lemma weight_nth link V (mu : list R) i : (i < length mu)%nat -> nth i (default_weight link V mu) 0 = 1 / (V (nth i mu 0) * lk_grad link (nth i mu 0) * lk_grad link (nth i mu 0)).
Proof. intro H. unfold default_weight. rewrite (nth_map _ mu i 0 0) by auto. reflexivity. Qed.

Theorem user_fixed inverse link V X y mu z b : inverse_sound inverse -> mwf X -> length y = nrows X -> length mu = nrows X -> length z = nrows X ->
  (forall i, (i < nrows X)%nat -> V (nth i mu 0) <> 0 /\ lk_grad link (nth i mu 0) <> 0) ->
  glm_pass inverse (user_family link V) (with_ones X) y mu z = Ok (b, mu, z) -> quasi_score (lk_inv link) V (lk_grad link) X y b.
Proof.
  intros Si W Ly Lm Lz NZ P.
  destruct (fixed_point_score inverse (user_family link V) X y mu z (default_weight link V mu) b Si W Ly eq_refl) as (Lb & Em & O); auto.
  - unfold default_weight. now rewrite map_length.
  - cbn [cr_y_bar user_family]. unfold default_y_bar. rewrite ybar_length; lia.
  - split; [exact Lb|]. intros q Lq. refine (eq_trans _ (O q Lq)). apply sumR_ext. intros i Hi.
    assert (EM : nth i mu 0 = lk_inv link (affine b (nth i (mrows X) []))).
    { rewrite Em. cbn [cr_link user_family]. rewrite (nth_map _ _ i 0 0) by (rewrite mat_vec_length', with_ones_nrows; auto). now rewrite eta_affine. }
    cbv zeta. rewrite <- EM, eta_affine by auto. f_equal. rewrite weight_nth by lia. cbn [cr_y_bar user_family]. unfold default_y_bar. rewrite ybar_nth by lia. cbn [nmul nsub NumR].
    destruct (NZ i Hi) as [N1 N2]. field. auto.
Qed.

Theorem user_trained inverse link V self X y self' : inverse_sound inverse -> mwf X -> (forall i, (i < length y)%nat -> 0 < V (nth i y 0)) ->
  glm_train inverse (user_family link V) self X y = (self', Ok tt) ->
  length y = nrows X /\ exists p, glm_parameters self' = Some p /\ length p = S (mcols X) /\ forall w, length w = nrows X ->
    (forall i, (i < nrows X)%nat -> nth i w 0 = 1 / (V (nth i y 0) * lk_grad link (nth i y 0) ^ 2)) ->
    forall q, length q = S (mcols X) -> wrss w X y p <= wrss w X y q.
Proof.
  intros Si W PV H. destruct (train_inv _ _ _ _ _ _ H) as [Ly [p [Ep L]]]. split; auto. exists p. split; auto.
  set (Z := with_ones X) in *. assert (RZ : nrows Z = nrows X) by apply with_ones_nrows.
  destruct (loop_start inverse (user_family link V) Z y y y (default_weight link V y) 6 (repeat nzero (S (mcols X))) p Si (with_ones_wf _ W)) as [Lp Np]; auto; try lia.
  - intros m Lm. exists (default_weight link V m). split; auto. unfold default_weight. now rewrite map_length.
  - unfold default_weight. rewrite map_length. lia.
  - cbn [cr_y_bar user_family]. apply ybar_zero. lia.
  - split; [exact Lp|]. intros w Lw Ew.
    assert (w = default_weight link V y).
    { apply (nth_ext _ _ 0 0); [unfold default_weight; rewrite map_length; lia|]. intros i Hi. rewrite weight_nth by lia. rewrite Ew by lia. f_equal. ring. }
    subst w. intros q Lq. apply wls_min; auto. intros i Hi. rewrite weight_nth by lia.
    assert (Hv : 0 < V (nth i y 0)) by (apply PV; lia). unfold Rdiv. rewrite Rmult_1_l.
    set (g := lk_grad link (nth i y 0)). rewrite Rmult_assoc.
    destruct (Req_dec g 0) as [->|N]; [rewrite Rmult_0_l, Rmult_0_r, Rinv_0; lra|].
    apply Rlt_le, Rinv_0_lt_compat, Rmult_lt_0_compat; [exact Hv|]. exact (Rsqr_pos_lt g N).
Qed.

(** The gamma family (variance [mu^2]) with the log link; two rows, targets 1 and 3. *)
Definition gamma_variance (m : R) : R := m * m.
Lemma gamma_weights (a b : R) : a <> 0 -> b <> 0 -> cr_working_weight (user_family Log gamma_variance) [a; b] = Ok [1; 1].
Proof. intros A B. cbn [cr_working_weight user_family]. unfold default_weight, gamma_variance. cbn [map lk_grad Log ndiv nmul nonev NumR]. apply f_equal. apply (f_equal2 cons); [field; auto|]. apply (f_equal2 cons); [field; auto|reflexivity]. Qed.
Lemma gamma_ex self : exists self', glm_train inverse2 (user_family Log gamma_variance) self X01 [1; 3] = (self', Ok tt) /\ glm_parameters self' = Some [1; 2].
Proof.
  unfold glm_train. cbn [cr_initialize_mu user_family]. unfold default_mu. cbn [negb Nat.eqb nrows length X01 mrows]. cbn [glm_loop].
  destruct (pass1 [1; 3] 1 3 1 1 (user_family Log gamma_variance) ltac:(lra) ltac:(lra) (gamma_weights 1 3 ltac:(lra) ltac:(lra)) [1; 3]) as [b [mu [z [P [Eb [Em Ez]]]]]].
  change (Mat [[0]; [1]] 1) with X01. rewrite P. cbn [rbind]. subst b.
  assert (Ey : z = [1; 3]). { rewrite Ez. cbn. list_eq; lra. }
  replace (nltb (vsum (map nabs (vsub (repeat nzero (S (mcols X01))) [1; 3 - 1]))) (tiny 10)) with false.
  2:{ symmetry. apply Proof_KMeans.nltb_R_false. rewrite tiny_R. rewrite diff_pos. cbn [repeat mcols X01 vsub map2 nsub NumR nzero map fold_left].
      rewrite (Rabs_left (0 - 1)), (Rabs_left (0 - (3 - 1))) by lra. lra. }
  subst mu z. rewrite Ey.
  assert (E1 : exp 1 <> 0) by apply Rgt_not_eq, exp_pos. assert (E3 : exp 3 <> 0) by apply Rgt_not_eq, exp_pos.
  destruct (pass1 (map (lk_inv (cr_link (user_family Log gamma_variance))) [1; 3]) 1 3 1 1 (user_family Log gamma_variance) ltac:(lra) ltac:(lra) (gamma_weights (exp 1) (exp 3) E1 E3) [1; 3]) as [b [mu [z [P2 [Eb2 _]]]]].
  rewrite P2. cbn [rbind]. subst b. rewrite diff_self.
  replace (nltb 0 (tiny 10)) with true. 2:{ symmetry. apply Proof_KMeans.nltb_R'. apply tiny_pos. }
  eexists. split; [reflexivity|]. cbn. f_equal. list_eq; lra.
Qed.
Lemma gamma_not_quasi : ~ quasi_score (lk_inv Log) gamma_variance (lk_grad Log) X01 [1; 3] [1; 2].
Proof.
  intros [_ H]. specialize (H [1; 0] eq_refl). cbv zeta in H. unfold gamma_variance, affine in H. cbn [X01 nrows mrows length sumR nth lk_inv lk_grad Log nexp NumFnR ndiv nonev NumR] in H.
  replace (1 + (0 + 2 * 0)) with 1 in H by ring. replace (1 + (0 + 2 * 1)) with 3 in H by ring.
  pose proof (exp_ineq1 1 ltac:(lra)) as E1. pose proof (exp_ineq1 3 ltac:(lra)) as E3. set (e1 := exp 1) in *. set (e3 := exp 3) in *.
  assert (A : (1 - e1) / (e1 * e1 * (1 / e1)) < 0). { replace (e1 * e1 * (1 / e1)) with e1 by (field; lra). apply Ropp_lt_cancel. rewrite Ropp_0. replace (- ((1 - e1) / e1)) with ((e1 - 1) / e1) by (field; lra). apply Rdiv_lt_0_compat; lra. }
  assert (B : (3 - e3) / (e3 * e3 * (1 / e3)) < 0). { replace (e3 * e3 * (1 / e3)) with e3 by (field; lra). apply Ropp_lt_cancel. rewrite Ropp_0. replace (- ((3 - e3) / e3)) with ((e3 - 3) / e3) by (field; lra). apply Rdiv_lt_0_compat; lra. }
  rewrite !Rmult_0_l in H. lra.
Qed.
Theorem user_refuted : exists self', glm_train inverse2 (user_family Log gamma_variance) glm_new X01 [1; 3] = (self', Ok tt) /\
  exists p, glm_parameters self' = Some p /\ ~ quasi_score (lk_inv Log) gamma_variance (lk_grad Log) X01 [1; 3] p.
Proof. destruct (gamma_ex glm_new) as (m & T & E). exists m. split; auto. exists [1; 2]. split; auto. exact gamma_not_quasi. Qed.
(** A fixed point with residuals for the gamma family. *)
Lemma gamma_fixed : glm_pass inverse2 (user_family Log gamma_variance) (with_ones X0011) [/2; 3/2; /2; 3/2] [1; 1; 1; 1] [-/2; /2; -/2; /2] = Ok ([0; 0], [1; 1; 1; 1], [-/2; /2; -/2; /2]).
Proof.
  apply (fixed_ex (user_family Log gamma_variance) 1 1); [lra| |apply exp_0|].
  - cbn [cr_working_weight user_family]. unfold default_weight, gamma_variance. cbn [map lk_grad Log ndiv nmul nonev NumR]. apply f_equal. list_eq; field.
  - cbn. list_eq; field.
Qed.
Lemma user_normal : user_family Identity (fun _ => 1) = Normal. Proof. reflexivity. Qed.
