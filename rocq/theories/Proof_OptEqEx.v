(** Cases for C131; the logistic regressor and mirrored features (C132). *)
From Coq Require Import List Arith Lia Bool Reals Lra Permutation.
From Verif Require Import Base BaseLemmas Num NumFn Linalg LinalgR Spec_Calc CalcR MatR Proof_KMeans Model_Cost Model_Toolkit Proof_Toolkit Model_Optim Proof_Optim Proof_Optim2 Model_CG
  Model_Regression Spec_Regression Proof_Regression Proof_Regression2 Proof_GLM2 Proof_Converge2 Spec_KNN Spec_DBSCAN2 Spec_KerInv Proof_KerInv Spec_OptEq Proof_OptEq Proof_OptEq2.
Import ListNotations.
Local Open Scope R_scope.

Lemma lifted_arrange pi : lifted (arrange pi) = fun v => match v with [] => [] | o :: x => o :: arrange pi x end.
Proof. reflexivity. Qed.
Definition mirror (x : list R) : list R := map Ropp x.
Lemma mirror_rigid n : rigid n n mirror.
Proof.
  intros a b La Lb. unfold mirror. split; [now rewrite map_length|]. unfold inner. apply sumR_ext. intros k Hk.
  rewrite !(nth_map Ropp _ _ _ 0) by lia. ring.
Qed.
Definition one_iter : GradientDesc R := {| gd_alpha := 3 / 10; gd_iters := 1 |}.
Definition trained (x : R) : R := / 2 + 3 / 10 * (1 - sigmoid (/ 2 + / 2 * x)).
Lemma ln_below x : 0 < x -> ln x <= x - 1.
Proof.
  intros H. pose proof (exp_ineq1_le (ln x)) as K. rewrite exp_ln in K by auto. lra.
Qed.
Lemma sp_big z : z <= 1 -> / 4 <= sp z - z.
Proof.
  intros Hz. unfold sp. pose proof (exp_pos z). assert (E : exp z <= 3). { apply Rle_trans with (exp 1); [|apply exp_le_3]. destruct Hz as [Hz| ->]; [left; now apply exp_increasing|lra]. }
  assert (K : z - ln (1 + exp z) = ln (exp z / (1 + exp z))).
  { unfold Rdiv. rewrite ln_mult, ln_Rinv, ln_exp by (try apply Rinv_0_lt_compat; lra). ring. }
  assert (P : 0 < exp z / (1 + exp z)) by (apply Rdiv_lt_0_compat; lra).
  pose proof (ln_below _ P) as B. assert (Q : exp z / (1 + exp z) <= 3 / 4).
  { apply Rmult_le_reg_r with (1 + exp z); [lra|]. unfold Rdiv at 1. rewrite Rmult_assoc, Rinv_l by lra. lra. }
  lra.
Qed.
Lemma tiny : / 10 ^ 20 < / 4.
Proof. apply Rinv_lt_contravar; [|]; simpl; lra. Qed.
Lemma train_one x : x <= 1 -> exists m p0 p1, log_train (gd_optimize one_iter) log_new (Mat [[x]] 1) [1] = (m, Ok tt) /\ log_parameters m = Some [p0; p1] /\
  p0 = / 2 + 3 / 10 * (1 - sigmoid (/ 2 + / 2 * x)) /\ p1 = / 2 + 3 / 10 * x * (1 - sigmoid (/ 2 + / 2 * x)).
Proof.
  intros Hx. unfold log_train. change (@nonev R NumR / (@nonev R NumR + @nonev R NumR))%num with (1 / (1 + 1)).
  unfold gd_optimize. cbn [gd_iters one_iter gd_loop].
  change (mcols (with_ones (Mat [[x]] 1))) with 2%nat. cbn [repeat].
  rewrite log_compute_grad_R; [|apply with_ones_wf; repeat constructor|reflexivity|reflexivity]. cbn [rbind].
  assert (Em : mat_vec (with_ones (Mat [[x]] 1)) [1 / (1 + 1); 1 / (1 + 1)] = [/ 2 + / 2 * x]).
  { unfold mat_vec, with_ones. cbn [mrows map]. rewrite !dot_cons, dot_nil_l. cbn [nonev NumR]. f_equal. field. }
  assert (Ec : lg_cost (with_ones (Mat [[x]] 1)) [1] [1 / (1 + 1); 1 / (1 + 1)] = sp (/ 2 + / 2 * x) - (/ 2 + / 2 * x)).
  { unfold lg_cost. rewrite Em. change (nrows (with_ones (Mat [[x]] 1))) with 1%nat. cbn [sumR nth INR]. field. }
  assert (Eg : lg_grad (with_ones (Mat [[x]] 1)) [1] [1 / (1 + 1); 1 / (1 + 1)] = [sigmoid (/ 2 + / 2 * x) - 1; x * (sigmoid (/ 2 + / 2 * x) - 1)]).
  { unfold lg_grad. rewrite Em. change (nrows (with_ones (Mat [[x]] 1))) with 1%nat. set (sg := sigmoid (/ 2 + / 2 * x)).
    unfold mat_vec, transpose, with_ones, vsub, col. cbn [mrows mcols map seq map2 nth].
    fold sg. rewrite !dot_cons, !dot_nil_l. cbn [nsub nonev NumR INR]. f_equal; [field|]. f_equal. field. }
  rewrite Ec, Eg. rewrite learning_eps_R. cbn [nltb nabs nsub nzero NumR].
  pose proof (sp_big (/ 2 + / 2 * x) ltac:(lra)) as B. pose proof tiny as Ti.
  destruct (Rlt_dec _ _) as [K|_]; [exfalso; rewrite Rminus_0_l, Rabs_Ropp, Rabs_right in K by lra; lra|].
  cbn [vscale map length]. unfold rvsub, rassert. cbn [length Nat.eqb rbind vsub map2]. 
  eexists _, _, _. split; [reflexivity|]. split; [reflexivity|]. cbn [gd_alpha one_iter nsub nmul NumR].
  set (sg := sigmoid (/ 2 + / 2 * x)). clearbody sg. split; field.
Qed.
Lemma sigmoid_inj (x y : R) : sigmoid x = sigmoid y -> x = y.
Proof.
  rewrite !sigmoid_R. intros E. assert (E2 : 1 + exp (- x) = 1 + exp (- y)).
  { pose proof (exp_pos (- x)). pose proof (exp_pos (- y)). apply (f_equal Rinv) in E. rewrite !Rinv_inv in E. exact E. }
  assert (E3 : exp (- x) = exp (- y)) by lra. apply exp_inv in E3. lra.
Qed.
Theorem mirrored_logistic : exists gd X y Z m m' a b, mwf X /\ mwf Z /\ mcols Z = mcols X /\ length y = nrows X /\ rigid (mcols X) (mcols X) mirror /\
  gd_new (3 / 10) 1 = Ok gd /\
  log_train (gd_optimize gd) log_new X y = (m, Ok tt) /\ log_train (gd_optimize gd) log_new (map_rows (mcols X) mirror X) y = (m', Ok tt) /\
  log_predict m Z = Ok [a] /\ log_predict m' (map_rows (mcols X) mirror Z) = Ok [b] /\ a <> b.
Proof.
  destruct (train_one 1 ltac:(lra)) as (m & p0 & p1 & Em & Ep & E0 & E1).
  destruct (train_one (-1) ltac:(lra)) as (m' & q0 & q1 & Em' & Eq & F0 & F1).
  exists one_iter, (Mat [[1]] 1), [1], (Mat [[1]] 1), m, m', (sigmoid (p0 + p1)), (sigmoid (q0 - q1)).
  split; [repeat constructor|]. split; [repeat constructor|]. split; [reflexivity|]. split; [reflexivity|]. split; [apply mirror_rigid|].
  split. { unfold gd_new, rassert. cbn [nltb nzero NumR]. destruct (Rlt_dec 0 (3 / 10)); [reflexivity|lra]. }
  split; [exact Em|]. split; [unfold map_rows, mirror; cbn [mrows mcols map]; exact Em'|].
  assert (V : forall x a b : R, rmat_vec (with_ones (Mat [[x]] 1)) [a; b] = Ok [a + x * b]).
  { intros x a b. unfold rmat_vec, rassert, with_ones, mat_vec. cbn [mcols mrows length Nat.eqb map]. rewrite !dot_cons, dot_nil_l. cbn [nonev NumR]. do 2 f_equal. ring. }
  split. { unfold log_predict. rewrite Ep, V. cbn [rbind map]. now rewrite Rmult_1_l. }
  split. { unfold log_predict, map_rows, mirror. rewrite Eq. cbn [mrows mcols map]. rewrite V. cbn [rbind map]. replace (q0 - q1) with (q0 + - (1) * q1) by ring. reflexivity. }
  intros K. apply sigmoid_inj in K. pose proof (sigmoid_range (/ 2 + / 2 * 1)). pose proof (sigmoid_range (/ 2 + / 2 * -1)). lra.
Qed.
(** The loss itself does not see the mirror, so converged models agree. *)
Theorem mirrored_loss X y p n' T : mwf X -> length p = S (mcols X) -> length y = nrows X -> rigid (mcols X) n' T ->
  log_loss (map_rows n' T X) y (lifted T p) = log_loss X y p.
Proof.
  intros W Lp Ly HT. pose proof (lifted_rigid _ _ _ HT) as HU. pose proof (with_ones_wf X W) as WX.
  assert (W' : mwf (map_rows n' T X)).
  { unfold map_rows, mwf. cbn [mrows mcols]. apply Forall_map, Forall_forall. intros r Hr. apply (rig_len _ n' T HT). unfold mwf in W. rewrite Forall_forall in W. auto. }
  rewrite !log_loss_cost; auto.
  - unfold lg_cost. rewrite ones_lifted, (carry_vec (S (mcols X)) (S n') (lifted T) (with_ones X) HU WX) by auto. rewrite (carry_nrows (S n') (lifted T)). reflexivity.
  - unfold nrows, map_rows. cbn [mrows]. rewrite map_length. exact Ly.
  - apply (rig_len _ _ _ HU). exact Lp.
Qed.

(** Two objectives that differ by a mirror, and by an exchange of the parameters. *)
Definition bowl (w : list R) : res (R * list R) := Ok (nth 0 w 0 ^ 2, [2 * nth 0 w 0; 0]).
Definition bowl' (w : list R) : res (R * list R) := Ok (nth 1 w 0 ^ 2, [0; 2 * nth 1 w 0]).
Lemma bowl_carried : carried 2 mirror bowl bowl /\ carried 2 (arrange [1; 0]%nat) bowl bowl'.
Proof.
  split; intros w Lw; destruct w as [|a [|b [|]]]; try discriminate; eexists _, _; (split; [reflexivity|]); (split; [reflexivity|]); unfold bowl, bowl', mirror, arrange; cbn; do 2 f_equal.
  - ring.
  - f_equal; [ring|]. f_equal. ring.
Qed.
Definition row_bowl (w : list R) (x t : matrix R) : res (R * list R) := bowl w.
Lemma row_carried (M : matrix R) : carried_rows 2 mirror row_bowl row_bowl M M M M.
Proof.
  split; [reflexivity|]. intros i w Lw. unfold at_row. destruct (one_row M i); cbn [rbind]; [|split; [reflexivity|discriminate]..].
  unfold row_bowl. destruct (proj1 bowl_carried w Lw) as (c & g & E & Lg & E'). rewrite E, E'. split; [reflexivity|]. intros c' g' K. injection K as _ <-. exact Lg.
Qed.
