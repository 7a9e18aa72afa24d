(** Training that does not treat the two classes alike (C190). *)
From Coq Require Import List Arith Lia Bool Reals Lra.
From Verif Require Import Base BaseLemmas Num NumFn Linalg LinalgR Spec_Calc CalcR MatR Model_Cost Model_Toolkit Proof_Toolkit Model_Optim Proof_Optim Proof_Optim2 Model_Regression Spec_Regression Proof_Regression Proof_Regression2 Proof_Converge2 Proof_OptEqEx
  Model_GLM Spec_GLM Proof_GLM Proof_GLM2 Proof_GLMEx Proof_GLMFrameEx Spec_Swap Proof_Swap.
Import ListNotations.
Local Open Scope R_scope.

(** Two rows of each feature value, one of each class. *)
Definition balanced : list R := [0; 1; 0; 1].
Lemma balanced_pass (m : list R) w a b : 0 < w -> map (fun m => clip_weight (bern_variance m)) m = [w; w; w; w] -> forall y,
  glm_pass inverse2 Bernoulli (with_ones X0011) y m [a; b; a; b] =
    Ok ([(a + b) / 2; 0], map (lk_inv Logit) (repeat ((a + b) / 2) 4), vadd (bern_y_bar y m) (repeat ((a + b) / 2) 4)).
Proof.
  intros P E y. unfold glm_pass. cbn [cr_working_weight Bernoulli]. rewrite E. cbn [rbind].
  assert (EA : mat_mul (mat_mul (transpose (with_ones X0011)) (from_diag [w; w; w; w])) (with_ones X0011) = Mat [[4 * w; 2 * w]; [2 * w; 2 * w]] 2).
  { unfold X0011. expand. apply (f_equal2 Mat); [|reflexivity]. apply (f_equal2 (@cons (list R))); [list_eq; ring|]. apply (f_equal2 (@cons (list R))); [list_eq; ring|reflexivity]. }
  rewrite EA. unfold inverse2. destruct (Req_EM_T _ _) as [D|D]; [exfalso; nra|].
  set (v := mat_vec (mat_mul _ _) _).
  assert (Eb : v = [(a + b) / 2; 0]).
  { unfold v, X0011. expand. list_eq; field; repeat split; nra. }
  assert (Ef : mat_vec (with_ones X0011) v = repeat ((a + b) / 2) 4).
  { rewrite Eb. unfold X0011. expand. cbn [repeat]. list_eq; ring. }
  rewrite Ef, Eb. reflexivity.
Qed.
Lemma init_balanced (u v : R) : (u = 0 /\ v = 1) \/ (u = 1 /\ v = 0) -> exists a b, bern_mu [u; v; u; v] = [a; b; a; b] /\ a + b = 1 /\ 0 < a < 1 /\ 0 < b < 1 /\
  bern_y_bar [u; v; u; v] [a; b; a; b] = [(u - a) / (a * (1 - a)); (v - b) / (b * (1 - b)); (u - a) / (a * (1 - a)); (v - b) / (b * (1 - b))].
Proof.
  assert (A : nltb 0 eps = true) by (apply Proof_KMeans.nltb_R'; lra).
  assert (B : nltb 1 eps = false) by (apply Proof_KMeans.nltb_R_false; lra).
  assert (C : nltb (1 - eps) 1 = true) by (apply Proof_KMeans.nltb_R'; lra).
  assert (Y : nltb (Rabs (0 - eps)) (tiny 15) = false). { apply Proof_KMeans.nltb_R_false. rewrite tiny15, (Rabs_left (0 - eps)) by lra. lra. }
  assert (Y' : nltb (Rabs (1 - (1 - eps))) (tiny 15) = false). { apply Proof_KMeans.nltb_R_false. rewrite tiny15, Rabs_right by lra. lra. }
  intros [[-> ->]|[-> ->]]; [exists eps, (1 - eps)|exists (1 - eps), eps];
    (split; [unfold bern_mu; cbn [map]; rewrite !tiny10; cbn [nsub nonev NumR]; rewrite A, B, C; reflexivity|]); (split; [lra|]); (split; [lra|]); (split; [lra|]);
    unfold bern_y_bar; cbn [map2 nsub nabs NumR]; rewrite Y, Y'; cbn [lk_grad Logit ndiv nonev nmul nsub NumR]; list_eq; field; lra.
Qed.
Lemma half_diff : nltb (vsum (map nabs (vsub [1 / 2; 0] [1 / 2; 0]))) (tiny 10) = true.
Proof.
  apply Proof_KMeans.nltb_R'. rewrite tiny10, diff_pos. cbn [vsub map2 nsub NumR map fold_left]. rewrite !Rminus_diag_eq, Rabs_R0 by reflexivity. lra.
Qed.
Lemma train_balanced (u v : R) self : (u = 0 /\ v = 1) \/ (u = 1 /\ v = 0) ->
  glm_train inverse2 Bernoulli self X0011 [u; v; u; v] = ({| glm_parameters := Some [1 / 2; 0] |}, Ok tt).
Proof.
  intros H. destruct (init_balanced u v H) as (a & b & Em & S1 & Ra & Rb & Ey). unfold glm_train. change (nrows X0011 =? length [u; v; u; v])%nat with true. cbn [negb].
  cbn [cr_initialize_mu Bernoulli]. rewrite Em. cbn [glm_loop].
  assert (Ew : clip_weight (bern_variance b) = clip_weight (bern_variance a)).
  { unfold bern_variance. cbn [nmul nsub nonev NumR]. replace b with (1 - a) by lra. replace ((1 - a) * (1 - (1 - a))) with (a * (1 - a)) by ring. reflexivity. }
  rewrite (balanced_pass [a; b; a; b] (clip_weight (bern_variance a)) a b); [|now apply weight_pos|cbn [map]; now rewrite Ew]. cbn [rbind]. rewrite S1, Ey.
  replace (nltb _ _) with false.
  2:{ symmetry. apply Proof_KMeans.nltb_R_false. rewrite tiny10, diff_pos. cbn [repeat mcols X0011 vsub map2 nsub NumR nzero map fold_left].
      rewrite (Rabs_left (0 - 1 / 2)) by lra. rewrite Rminus_0_r, Rabs_R0. lra. }
  set (m1 := lk_inv Logit (1 / 2)). set (z1 := (u - a) / (a * (1 - a)) + 1 / 2). set (z2 := (v - b) / (b * (1 - b)) + 1 / 2).
  change (map (lk_inv Logit) (repeat (1 / 2) 4)) with [m1; m1; m1; m1].
  match goal with |- context [vadd ?p ?q] => change (vadd p q) with [z1; z2; z1; z2] end.
  rewrite (balanced_pass [m1; m1; m1; m1] (clip_weight (bern_variance m1)) z1 z2); [|apply weight_pos, inv_range|reflexivity]. cbn [rbind].
  assert (Ez : (z1 + z2) / 2 = 1 / 2).
  { unfold z1, z2. replace b with (1 - a) by lra. replace v with (1 - u) by lra. field. lra. }
  rewrite Ez, half_diff. reflexivity.
Qed.
Theorem glm_swap_refuted : exists m m' a b, glm_train inverse2 Bernoulli glm_new X0011 balanced = (m, Ok tt) /\
  glm_train inverse2 Bernoulli glm_new X0011 (exchanged balanced) = (m', Ok tt) /\
  glm_predict Bernoulli m (Mat [[0]] 1) = Ok [a] /\ glm_predict Bernoulli m' (Mat [[0]] 1) = Ok [b] /\ 1 / 2 < a /\ 1 / 2 < b.
Proof.
  set (m := {| glm_parameters := Some [1 / 2; 0] |}). exists m, m, (lk_inv Logit (affine [1 / 2; 0] [0])), (lk_inv Logit (affine [1 / 2; 0] [0])).
  assert (P : 0 < affine [1 / 2; 0] [0]) by (unfold affine; cbn [length sumR nth]; lra).
  assert (Q : glm_predict Bernoulli m (Mat [[0]] 1) = Ok [lk_inv Logit (affine [1 / 2; 0] [0])]) by (rewrite (predict_eq Bernoulli m _ _ eq_refl) by repeat constructor; reflexivity).
  split; [apply train_balanced; lra|]. split. { replace (exchanged balanced) with [1; 0; 1; 0] by (unfold exchanged, balanced; cbn; list_eq; ring). apply train_balanced. lra. }
  split; [exact Q|]. split; [exact Q|]. split; now apply logistic_half'.
Qed.

(** One row with feature 0, one iteration of gradient descent. *)
Lemma train_zero t : t = 0 \/ t = 1 -> exists m p0 p1, log_train (gd_optimize one_iter) log_new (Mat [[0]] 1) [t] = (m, Ok tt) /\ log_parameters m = Some [p0; p1] /\
  p0 = / 2 + 3 / 10 * (t - sigmoid (/ 2)).
Proof.
  intros Ht. unfold log_train. change (@nonev R NumR / (@nonev R NumR + @nonev R NumR))%num with (1 / (1 + 1)).
  unfold gd_optimize. cbn [gd_iters one_iter gd_loop].
  change (mcols (with_ones (Mat [[0]] 1))) with 2%nat. cbn [repeat].
  rewrite log_compute_grad_R; [|apply with_ones_wf; repeat constructor|reflexivity|reflexivity]. cbn [rbind].
  assert (Em : mat_vec (with_ones (Mat [[0]] 1)) [1 / (1 + 1); 1 / (1 + 1)] = [/ 2]).
  { unfold mat_vec, with_ones. cbn [mrows map]. rewrite !dot_cons, dot_nil_l. cbn [nonev NumR]. f_equal. field. }
  assert (Ec : lg_cost (with_ones (Mat [[0]] 1)) [t] [1 / (1 + 1); 1 / (1 + 1)] = sp (/ 2) - t * / 2).
  { unfold lg_cost. rewrite Em. change (nrows (with_ones (Mat [[0]] 1))) with 1%nat. cbn [sumR nth INR]. field. }
  assert (Eg : lg_grad (with_ones (Mat [[0]] 1)) [t] [1 / (1 + 1); 1 / (1 + 1)] = [sigmoid (/ 2) - t; 0]).
  { unfold lg_grad. rewrite Em. change (nrows (with_ones (Mat [[0]] 1))) with 1%nat. cbn [map]. set (sg := sigmoid (/ 2)).
    unfold mat_vec, transpose, with_ones, vsub, col. cbn [mrows mcols map seq map2 nth].
    fold sg. rewrite !dot_cons, !dot_nil_l. cbn [nsub nonev NumR INR]. f_equal; [field|]. f_equal. field. }
  rewrite Ec, Eg. rewrite Proof_Optim2.learning_eps_R. cbn [nltb nabs nsub nzero NumR].
  pose proof (sp_big (/ 2) ltac:(lra)) as B. pose proof Proof_OptEqEx.tiny as Ti.
  destruct (Rlt_dec _ _) as [K|_].
  { exfalso. assert (/ 4 <= sp (/ 2) - t * / 2) by (destruct Ht as [-> | ->]; lra). rewrite Rminus_0_l, Rabs_Ropp, Rabs_right in K by lra. lra. }
  cbn [vscale map length]. unfold rvsub, rassert. cbn [length Nat.eqb rbind vsub map2].
  eexists _, _, _. split; [reflexivity|]. split; [reflexivity|]. cbn [gd_alpha one_iter nsub nmul NumR].
  set (sg := sigmoid (/ 2)). clearbody sg. field.
Qed.
Theorem log_swap_refuted : exists gd m m' a b, gd_new (3 / 10) 1 = Ok gd /\ log_train (gd_optimize gd) log_new (Mat [[0]] 1) [1] = (m, Ok tt) /\
  log_train (gd_optimize gd) log_new (Mat [[0]] 1) (exchanged [1]) = (m', Ok tt) /\
  log_predict m (Mat [[0]] 1) = Ok [a] /\ log_predict m' (Mat [[0]] 1) = Ok [b] /\ b <> 1 - a.
Proof.
  destruct (train_zero 1 ltac:(lra)) as (m & p0 & p1 & Em & Ep & E0). destruct (train_zero 0 ltac:(lra)) as (m' & q0 & q1 & Em' & Eq & F0).
  exists one_iter, m, m', (sigmoid p0), (sigmoid q0).
  assert (V : forall a b, rmat_vec (with_ones (Mat [[0]] 1)) [a; b] = Ok [a]).
  { intros a b. unfold rmat_vec, rassert, mat_vec, with_ones. cbn [mrows mcols length Nat.eqb map]. rewrite !dot_cons, dot_nil_l. cbn [nonev NumR]. do 2 f_equal. ring. }
  split. { unfold gd_new, rassert, one_iter. cbn. destruct (Rlt_dec 0 (3 / 10)); [reflexivity|exfalso; lra]. }
  split; [exact Em|]. split. { replace (exchanged [1]) with [0] by (unfold exchanged; cbn; list_eq; ring). exact Em'. }
  split. { unfold log_predict. rewrite Ep, V. reflexivity. } split. { unfold log_predict. rewrite Eq, V. reflexivity. }
  intros K. rewrite <- sigmoid_flip in K. apply sigmoid_inj in K. rewrite E0, F0 in K.
  assert (sigmoid (/ 2) < 1). { rewrite sigmoid_R. pose proof (exp_pos (- / 2)). rewrite <- Rinv_1. apply Rinv_lt_contravar; lra. }
  lra.
Qed.
