(** Links, and concrete cases, for [Props_GLM]. *)
From Coq Require Import List Arith Lia Bool Reals Lra.
From Coquelicot Require Import Coquelicot.
From Verif Require Import Base BaseLemmas Num NumFn Linalg LinalgR Spec_Calc CalcR MatR Proof_KMeans Model_Optim Proof_Optim Proof_Optim2
  Proof_Toolkit Model_Regression Spec_Regression Proof_Regression Model_GLM Spec_GLM Proof_GLM Proof_GLM2.
Import ListNotations.
Local Open Scope R_scope.

Lemma logit_inv_l (x : R) : 0 < x < 1 -> lk_inv Logit (lk_func Logit x) = x.
Proof.
  intros H. cbn. assert (P : 0 < x / (1 - x)) by (apply Rdiv_lt_0_compat; lra).
  rewrite exp_Ropp, exp_ln by auto. field. lra.
Qed.
Lemma logit_inv_range (x : R) : 0 < lk_inv Logit x < 1.
Proof.
  cbn. pose proof (exp_pos (- x)). split; [apply Rdiv_lt_0_compat; lra|].
  apply (Rmult_lt_reg_r (1 + exp (- x))); [lra|]. unfold Rdiv. rewrite Rmult_assoc, Rinv_l; lra.
Qed.
Lemma logit_inv_r (x : R) : lk_func Logit (lk_inv Logit x) = x.
Proof.
  cbn. pose proof (exp_pos (- x)).
  replace (1 / (1 + exp (- x)) / (1 - 1 / (1 + exp (- x)))) with (exp x).
  - apply ln_exp.
  - assert (E : exp x * exp (- x) = 1) by (rewrite <- exp_plus; replace (x + - x) with 0 by ring; apply exp_0).
    replace (1 - 1 / (1 + exp (- x))) with (exp (- x) / (1 + exp (- x))) by (field; lra).
    replace (1 / (1 + exp (- x)) / (exp (- x) / (1 + exp (- x)))) with (1 / exp (- x)) by (field; lra).
    apply (Rmult_eq_reg_r (exp (- x))); [|lra]. rewrite E. field. lra.
Qed.
Lemma logit_deriv (x : R) : 0 < x < 1 -> derivable_pt_lim (lk_func Logit) x (lk_grad Logit x).
Proof.
  intros H. cbn. assert (P : 0 < x / (1 - x)) by (apply Rdiv_lt_0_compat; lra). apply is_derive_Reals.
  auto_derive. { repeat split; auto; lra. } field. lra.
Qed.
Lemma log_deriv (x : R) : 0 < x -> derivable_pt_lim (lk_func Log) x (lk_grad Log x).
Proof. intros H. cbn. apply is_derive_Reals. auto_derive; [auto|]. unfold Rdiv. ring. Qed.
Lemma identity_deriv (x : R) : derivable_pt_lim (lk_func Identity) x (lk_grad Identity x).
Proof. cbn. apply derivable_pt_lim_id. Qed.

Lemma predict_means cr (okm : R -> Prop) self p X out : (forall x : R, okm (lk_inv (cr_link cr) x)) -> glm_parameters self = Some p ->
  glm_predict cr self X = Ok out -> length out = nrows X /\ List.Forall okm out.
Proof.
  intros HP Ep H. unfold glm_predict in H. rewrite Ep in H.
  destruct (rmat_vec (with_ones X) p) as [z| |] eqn:E; try discriminate. cbn [rbind] in H. apply Ok_inj in H. subst out.
  apply rmat_vec_Ok in E. destruct E as [_ ->]. split. { rewrite map_length, mat_vec_length'. apply with_ones_nrows. }
  apply Forall_forall. intros v Iv. apply in_map_iff in Iv. destruct Iv as [u [<- _]]. apply HP.
Qed.
Lemma predict_eq cr self p X : glm_parameters self = Some p -> mwf X ->
  glm_predict (F := R) cr self X = if (length p =? S (mcols X))%nat then Ok (map (fun x => lk_inv (cr_link cr) (affine p x)) (mrows X)) else Panic.
Proof.
  intros Ep W. unfold glm_predict. rewrite Ep. unfold rmat_vec, rassert. cbn [mcols with_ones]. rewrite Nat.eqb_sym.
  destruct (Nat.eqb_spec (length p) (S (mcols X))) as [E|E]; [|reflexivity]. cbn [rbind]. rewrite mat_vec_ones by auto. now rewrite map_map.
Qed.

Lemma glm_train_failed {F} {N : Num F} {NF : NumFn F} inverse cr (self : GenLinearModel F) X y self' r :
  glm_train inverse cr self X y = (self', r) -> r <> Ok tt -> self' = self.
Proof.
  unfold glm_train. destruct (negb _). { intros H _. now injection H. }
  destruct (glm_loop _ _ _ _ _ _ _ _); intros H Hr; injection H; intros <- <-; congruence.
Qed.
Lemma glm_train_size {F} {N : Num F} {NF : NumFn F} inverse cr (self : GenLinearModel F) X y :
  nrows X <> length y -> glm_train inverse cr self X y = (self, Err InvalidData).
Proof. intros H. unfold glm_train. apply Nat.eqb_neq in H. now rewrite H. Qed.
Lemma glm_train_singular {F} {N : Num F} {NF : NumFn F} inverse (cr : Criterion F) self X y w :
  nrows X = length y -> cr_working_weight cr (cr_initialize_mu cr y) = Ok w ->
  inverse (mat_mul (mat_mul (transpose (with_ones X)) (from_diag w)) (with_ones X)) = None ->
  glm_train inverse cr self X y = (self, Panic).
Proof. intros H Hw Hi. unfold glm_train. rewrite H, Nat.eqb_refl. cbn [negb glm_loop]. unfold glm_pass. rewrite Hw. cbn [rbind]. now rewrite Hi. Qed.

(** The inverse of a 2 x 2 matrix. *)
Definition inverse2 (A : matrix R) : option (matrix R) :=
  match A with
  | Mat [[p; q]; [r; s]] 2 =>
      let d := p * s - q * r in
      if Req_EM_T d 0 then None else Some (Mat [[s / d; - q / d]; [- r / d; p / d]] 2)
  | _ => None
  end.
Lemma inverse2_sound : inverse_sound inverse2.
Proof.
  intros A B W Sq H. unfold inverse2 in H.
  destruct A as [[|[|p [|q [|]]] [|[|r [|s [|]]] [|]]] [|[|[|]]]]; try discriminate.
  destruct (Req_EM_T _ _) as [E|E]; [discriminate|]. injection H as <-.
  split. { repeat constructor. } split; [reflexivity|]. split; [reflexivity|].
  intros [|u [|v [|]]] L; try discriminate. unfold mat_vec. cbn [map mrows]. rewrite !dot_cons, !dot_nil_l.
  split; (apply (f_equal2 (@cons R)); [field; auto|]); (apply (f_equal2 (@cons R)); [field; auto|reflexivity]).
Qed.

(** Counts 1 and 3 at x = 0 and x = 1: the fit interpolates the counts themselves, (1, 2), while
    the likelihood is maximal at (0, ln 3). *)
Definition X01 : matrix R := Mat [[0]; [1]] 1.
Ltac expand := cbv [X01 with_ones mat_mul transpose from_diag mat_vec col dot vsum fold_left map map2 mrows mcols nrows seq length nth Nat.eqb
  nadd nmul nsub nzero nonev nopp ndiv NumR vadd].
Ltac list_eq := repeat (apply (f_equal2 (@cons R)); [|]); try reflexivity.

Lemma pass1 mu (z1 z2 w1 w2 : R) cr : 0 < w1 -> 0 < w2 -> cr_working_weight cr mu = Ok [w1; w2] -> forall y,
  exists b mu' z', glm_pass inverse2 cr (with_ones X01) y mu [z1; z2] = Ok (b, mu', z') /\ b = [z1; z2 - z1] /\
    mu' = map (lk_inv (cr_link cr)) [z1; z2] /\ z' = vadd (cr_y_bar cr y mu) [z1; z2].
Proof.
  intros P1 P2 E y. unfold glm_pass. rewrite E. cbn [rbind].
  assert (EA : mat_mul (mat_mul (transpose (with_ones X01)) (from_diag [w1; w2])) (with_ones X01) = Mat [[w1 + w2; w2]; [w2; w2]] 2).
  { expand. apply (f_equal2 Mat); [|reflexivity]. apply (f_equal2 (@cons (list R))); [list_eq; ring|]. apply (f_equal2 (@cons (list R))); [list_eq; ring|reflexivity]. }
  rewrite EA. unfold inverse2. destruct (Req_EM_T _ _) as [D|D]; [exfalso; nra|].
  set (b := mat_vec _ _).
  assert (Eb : b = [z1; z2 - z1]).
  { unfold b. expand. list_eq; field; lra. }
  assert (Ef : mat_vec (with_ones X01) b = [z1; z2]).
  { rewrite Eb. expand. list_eq; ring. }
  rewrite Ef. eexists _, _, _. repeat split; auto.
Qed.

Lemma diff_pos (b c : list R) : vsum (map nabs (vsub b c)) = fold_left Rplus (map Rabs (vsub b c)) 0.
Proof. reflexivity. Qed.
Lemma poisson_ex self : exists self', glm_train inverse2 Poisson self X01 [1; 3] = (self', Ok tt) /\ glm_parameters self' = Some [1; 2].
Proof.
  unfold glm_train. rewrite poisson_init.
  2:{ intros [|[|i]] Hi; cbn in Hi; try lia; cbn [nth]; apply (Rmult_le_reg_r (10 ^ 10)); try (apply pow_lt; lra); unfold Rdiv; rewrite Rmult_assoc, Rinv_l; try lra. }
  cbn [negb Nat.eqb nrows length X01 mrows]. cbn [glm_loop].
  destruct (pass1 [1; 3] 1 3 1 3 Poisson ltac:(lra) ltac:(lra) eq_refl [1; 3]) as [b [mu [z [P [Eb [Em Ez]]]]]].
  rewrite P. cbn [rbind]. subst b.
  assert (Ey : z = [1; 3]). { rewrite Ez. cbn. list_eq; lra. }
  replace (nltb (vsum (map nabs (vsub (repeat nzero (S (mcols X01))) [1; 3 - 1]))) (tiny 10)) with false.
  2:{ symmetry. apply nltb_R_false. rewrite tiny_R. rewrite diff_pos. cbn [repeat mcols X01 vsub map2 nsub NumR nzero map fold_left].
      rewrite (Rabs_left (0 - 1)), (Rabs_left (0 - (3 - 1))) by lra. lra. }
  subst mu z. rewrite Ey.
  assert (Wp : cr_working_weight Poisson (map (lk_inv (cr_link Poisson)) [1; 3]) = Ok [exp 1; exp 3]) by reflexivity.
  destruct (pass1 (map (lk_inv (cr_link Poisson)) [1; 3]) 1 3 (exp 1) (exp 3) Poisson (exp_pos _) (exp_pos _) Wp [1; 3]) as [b [mu [z [P2 [Eb2 _]]]]].
  rewrite P2. cbn [rbind]. subst b. rewrite diff_self.
  replace (nltb 0 (tiny 10)) with true. 2:{ symmetry. apply nltb_R'. apply tiny_pos. }
  eexists. split; [reflexivity|]. cbn. f_equal. list_eq; lra.
Qed.
Lemma poisson_not_mle : ~ is_mle poisson_cumulant X01 [1; 3] [1; 2].
Proof.
  intros [_ H]. specialize (H [0; ln 3] eq_refl). unfold loglik, poisson_cumulant, affine in H. cbn [X01 nrows mrows length sumR nth] in H.
  replace (0 + (0 + ln 3 * 0)) with 0 in H by ring. replace (0 + (0 + ln 3 * 1)) with (ln 3) in H by ring.
  replace (1 + (0 + 2 * 0)) with 1 in H by ring. replace (1 + (0 + 2 * 1)) with (1 + 1 + 1) in H by ring.
  rewrite exp_0, exp_ln, !exp_plus in H by lra.
  assert (E1 : 9 / 4 <= exp 1).
  { replace 1 with (/2 + /2) by lra. rewrite exp_plus. pose proof (exp_ineq1_le (/2)). nra. }
  assert (L3 : 1 / 2 < ln 3).
  { rewrite <- (ln_exp (1 / 2)). apply ln_increasing; [apply exp_pos|]. apply Rlt_le_trans with (exp 1); [apply exp_increasing; lra|]. apply exp_le_3. }
  assert (9 / 4 * (9 / 4) * (9 / 4) <= exp 1 * exp 1 * exp 1) by (apply Rmult_le_compat; try nra).
  lra.
Qed.
Theorem poisson_refuted : exists self', glm_train inverse2 Poisson glm_new X01 [1; 3] = (self', Ok tt) /\
  exists p, glm_parameters self' = Some p /\ ~ is_mle poisson_cumulant X01 [1; 3] p.
Proof. destruct (poisson_ex glm_new) as [s [E P]]. exists s. split; auto. exists [1; 2]. split; auto. exact poisson_not_mle. Qed.

(** Fixed points with residuals: two observations at each of x = 0 and x = 1, all means equal. *)
Definition X0011 : matrix R := Mat [[0]; [0]; [1]; [1]] 1.
Lemma fixed_ex cr (m w : R) y z : 0 < w -> cr_working_weight cr [m; m; m; m] = Ok [w; w; w; w] ->
  lk_inv (cr_link cr) 0 = m -> cr_y_bar cr y [m; m; m; m] = [- z; z; - z; z] ->
  glm_pass inverse2 cr (with_ones X0011) y [m; m; m; m] [- z; z; - z; z] = Ok ([0; 0], [m; m; m; m], [- z; z; - z; z]).
Proof.
  intros P E El Ey. unfold glm_pass. rewrite E. cbn [rbind]. rewrite Ey.
  assert (EA : mat_mul (mat_mul (transpose (with_ones X0011)) (from_diag [w; w; w; w])) (with_ones X0011) = Mat [[4 * w; 2 * w]; [2 * w; 2 * w]] 2).
  { unfold X0011. expand. apply (f_equal2 Mat); [|reflexivity]. apply (f_equal2 (@cons (list R))); [list_eq; ring|]. apply (f_equal2 (@cons (list R))); [list_eq; ring|reflexivity]. }
  rewrite EA. unfold inverse2. destruct (Req_EM_T _ _) as [D|D]; [exfalso; nra|].
  set (b := mat_vec _ _).
  assert (Eb : b = [0; 0]).
  { unfold b, X0011. expand. list_eq; field; repeat split; nra. }
  assert (Ef : mat_vec (with_ones X0011) b = [0; 0; 0; 0]).
  { rewrite Eb. unfold X0011. expand. list_eq; ring. }
  rewrite Ef, Eb. cbn [map]. rewrite El. do 2 f_equal. cbn. list_eq; ring.
Qed.
Lemma fixed_ex_poisson : glm_pass inverse2 Poisson (with_ones X0011) [0; 2; 0; 2] [1; 1; 1; 1] [-1; 1; -1; 1] = Ok ([0; 0], [1; 1; 1; 1], [-1; 1; -1; 1]).
Proof. apply (fixed_ex Poisson 1 1); [lra|reflexivity|apply exp_0|]. cbn. list_eq; field. Qed.
Lemma fixed_ex_normal : glm_pass inverse2 Normal (with_ones X0011) [-1; 1; -1; 1] [0; 0; 0; 0] [-1; 1; -1; 1] = Ok ([0; 0], [0; 0; 0; 0], [-1; 1; -1; 1]).
Proof. apply (fixed_ex Normal 0 1); [lra| |reflexivity|]. - cbn [cr_working_weight Normal]. now rewrite normal_weight. - cbn. list_eq; ring. Qed.
Lemma fixed_ex_bernoulli : glm_pass inverse2 Bernoulli (with_ones X0011) [0; 1; 0; 1] [1/2; 1/2; 1/2; 1/2] [-2; 2; -2; 2] = Ok ([0; 0], [1/2; 1/2; 1/2; 1/2], [-2; 2; -2; 2]).
Proof.
  apply (fixed_ex Bernoulli (1/2) (1/4)); [lra| | |].
  - assert (V : bern_variance (1 / 2) = 1 / 4).
    { unfold bern_variance. cbv zeta. cbn [nsub nmul NumR nabs nonev]. replace (1 / 2 * (1 - 1 / 2)) with (1 / 4) by field. rewrite Rabs_pos_eq by lra.
      replace (nltb (1 / 4) (tiny 10)) with false; [reflexivity|]. symmetry. apply nltb_R_false. rewrite tiny_R. lra. }
    cbn [cr_working_weight Bernoulli map]. rewrite V. unfold clip_weight. cbn [nabs NumR]. rewrite Rabs_pos_eq by lra.
    replace (nltb (1 / 4) (tiny 5)) with false; [reflexivity|]. symmetry. apply nltb_R_false. rewrite tiny_R. lra.
  - cbn. rewrite Ropp_0, exp_0. field.
  - cbn [cr_y_bar Bernoulli bern_y_bar map2]. cbv zeta. cbn [nsub NumR nabs].
    rewrite (Rabs_left (0 - 1/2)), (Rabs_pos_eq (1 - 1/2)) by lra.
    replace (nltb (- (0 - 1 / 2)) (tiny 15)) with false by (symmetry; apply nltb_R_false; rewrite tiny_R; lra).
    replace (nltb (1 - 1 / 2) (tiny 15)) with false by (symmetry; apply nltb_R_false; rewrite tiny_R; lra).
    cbn [lk_grad Logit nmul nsub ndiv nonev NumR]. list_eq; field.
Qed.
Lemma bern_ex_hyp i : (i < 4)%nat -> 1 / 10 ^ 5 <= nth i [1/2; 1/2; 1/2; 1/2] 0 * (1 - nth i [1/2; 1/2; 1/2; 1/2] 0) /\
     (nth i [0; 1; 0; 1] 0 = nth i [1/2; 1/2; 1/2; 1/2] 0 \/ 1 / 10 ^ 15 <= Rabs (nth i [0; 1; 0; 1] 0 - nth i [1/2; 1/2; 1/2; 1/2] 0)).
Proof.
  intros H. do 4 (destruct i as [|i]; [cbn [nth]; split; [lra|right; unfold Rabs; destruct (Rcase_abs _); lra]|]). lia.
Qed.
(** Points (0, 1) and (1, 3): intercept 1, slope 2. *)
Lemma normal_ex : exists self', glm_train inverse2 Normal glm_new X01 [1; 3] = (self', Ok tt).
Proof.
  unfold glm_train. change (cr_initialize_mu Normal [1; 3]) with [1; 3]. cbn [negb Nat.eqb nrows length X01 mrows]. cbn [glm_loop].
  destruct (pass1 [1; 3] 1 3 1 1 Normal ltac:(lra) ltac:(lra)) with (y := [1; 3]) as [b [mu [z [P [Eb [Em Ez]]]]]].
  { cbn [cr_working_weight Normal]. now rewrite normal_weight. }
  rewrite P. cbn [rbind]. destruct (nltb _ _); [eexists; reflexivity|].
  assert (Ey : z = [1; 3]). { rewrite Ez. cbn. list_eq; lra. }
  rewrite Ey. destruct (pass1 mu 1 3 1 1 Normal ltac:(lra) ltac:(lra)) with (y := [1; 3]) as [b2 [mu2 [z2 [P2 [Eb2 _]]]]].
  { rewrite Em. cbn [cr_working_weight Normal]. now rewrite normal_weight. }
  rewrite P2. cbn [rbind]. rewrite Eb, Eb2, diff_self.
  replace (nltb 0 (tiny 10)) with true. 2:{ symmetry. apply nltb_R'. apply tiny_pos. }
  eexists. reflexivity.
Qed.
