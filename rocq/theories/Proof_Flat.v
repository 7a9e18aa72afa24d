(** * A network without hidden layers is a regression *)
From Coq Require Import List Arith Lia Bool Reals Lra.
From Verif Require Import Base BaseLemmas Num NumFn Linalg LinalgR Spec_Calc CalcR MatR Model_Toolkit Model_Rand Model_Optim Model_Cost
  Model_Regression Model_NNet Spec_Cost Spec_Regression Spec_NNet Proof_KMeans Proof_Toolkit Proof_Cost Proof_Rand Proof_Optim Proof_Regression
  Proof_NNet Proof_NNet2 Proof_NNet3 Proof_NNet4 Proof_NNet5.
Import ListNotations.
Local Open Scope R_scope.

Lemma flat_row a d w x : length x = d -> length w = S d -> net_row (mlp_kinds [d; 1%nat] a) w x = [af a (affine w x)].
Proof.
  intros Lx Lw. unfold mlp_kinds. cbn [net_row seq map]. f_equal. f_equal. unfold affine. rewrite Lx. f_equal.
  apply sumR_ext. intros k _. cbn [bias_rows]. rewrite Rmult_comm. f_equal. f_equal. lia.
Qed.
Lemma map_column {A} (f : A -> R) l : map (fun w => [w]) (map f l) = map (fun x => [f x]) l.
Proof. apply map_map. Qed.

Lemma flat_predict a (net : BaseNeuralNet R) d X : nn_layers net = mlp_layers [d; 1%nat] a -> length (nn_weights net) = S d -> mwf X -> mcols X = d ->
  net_predict net X = Ok (as_column (map (af a) (map (affine (nn_weights net)) (mrows X)))).
Proof.
  intros HL Lw W Hc. rewrite (predict_rows net (mlp_kinds [d; 1%nat] a) X 1).
  - unfold as_column. rewrite map_column, map_map. f_equal. f_equal. apply map_ext_in. intros x Hx.
    apply flat_row; auto. unfold mwf in W. rewrite Forall_forall in W. now rewrite (W x Hx).
  - rewrite HL. apply mlp_kinds_layers.
  - rewrite Lw. cbn. lia.
  - exact W.
  - cbn. rewrite Hc, Nat.eqb_refl. reflexivity.
Qed.

Lemma msum_column (l : list R) : msum (as_column l) = vsum l.
Proof.
  unfold msum, as_column. cbn [mrows]. f_equal. rewrite map_map. rewrite <- (map_id l) at 2. apply map_ext. intros x. unfold vsum. cbn. lra.
Qed.
Lemma column_shape (a b : list R) : length a = length b -> same_shape (as_column a) (as_column b) = true.
Proof. intros E. unfold same_shape, as_column, nrows. cbn. rewrite !map_length, E, Nat.eqb_refl. reflexivity. Qed.
Lemma column_zip f (a b : list R) : mzip f (as_column a) (as_column b) = as_column (map2 f a b).
Proof. unfold mzip, as_column. cbn. f_equal. revert b. induction a as [|x a IH]; intros [|z b]; cbn; auto. now rewrite IH. Qed.
Lemma column_map f (a : list R) : mmap f (as_column a) = as_column (map f a).
Proof. unfold mmap, as_column. cbn. f_equal. rewrite !map_map. reflexivity. Qed.
Lemma column_rows (a : list R) : nrows (as_column a) = length a.
Proof. unfold nrows, as_column. cbn. apply map_length. Qed.
Lemma column_wf (a : list R) : mwf (as_column a).
Proof. unfold mwf, as_column. cbn. rewrite Forall_forall. intros r Hr. apply in_map_iff in Hr. destruct Hr as (x & <- & _). reflexivity. Qed.

Lemma mse_column (o y : list R) : length o = length y -> mse_cost (as_column o) (as_column y) = mse_cost_vec o y.
Proof.
  intros E. unfold mse_cost, mse_cost_vec, rassert. rewrite column_shape, E, Nat.eqb_refl by auto. rewrite !column_zip, msum_column, column_rows. reflexivity.
Qed.
Lemma ce_column (o y : list R) : length o = length y -> ce_cost (as_column o) (as_column y) = ce_cost_vec o y.
Proof.
  intros E. unfold ce_cost, ce_cost_vec, rassert. rewrite column_shape, E, Nat.eqb_refl by auto. rewrite !column_map, !column_zip, msum_column, column_rows, E. reflexivity.
Qed.

Lemma gd_loop_scaled a b c (f f' : list R -> res (R * list R)) m n : (0 <= c) -> a = b * c ->
  (forall w, length w = m -> exists u g, f w = Ok (u, g) /\ length g = m /\ f' w = Ok (u, map (Rmult c) g)) ->
  forall w e, length w = m -> gd_loop b f' n w e = gd_loop a f n w e.
Proof.
  intros C E H. induction n as [|n IH]; intros w e L; cbn [gd_loop]; [reflexivity|].
  destruct (H w L) as (u & g & E1 & Lg & E2). rewrite E1, E2. cbn [rbind].
  destruct (nabs (e - u) <? learning_eps)%num; [reflexivity|].
  replace (vscale b (map (Rmult c) g)) with (vscale a g).
  - unfold rvsub, rassert. unfold vscale. rewrite map_length, L, Lg, Nat.eqb_refl. cbn [rbind]. apply IH.
    unfold vsub. rewrite map2_length, map_length, L, Lg. apply Nat.min_id.
  - unfold vscale. rewrite map_map. apply map_ext. intros x. cbn. rewrite E. ring.
Qed.

Section Flat.
  Context (X : matrix R) (y : list R).
  Hypothesis W : mwf X.
  Hypothesis Hn : (0 < nrows X)%nat.
  Hypothesis Ly : length y = nrows X.
  Let n := INR (nrows X).

  (** What the two cost functions and the two regressions have in common. *)
  Context (a : Activ R) (cc : matrix R -> matrix R -> res R) (cv : list R -> list R -> res R) (rg : matrix R -> list R -> list R -> res (R * list R)).
  Hypothesis Cc : forall o, length o = length y -> cc (as_column o) (as_column y) = cv o y.
  Hypothesis Cr : forall w, length w = S (mcols X) -> cost_of (rg (with_ones X) y w) = cv (map (af a) (map (affine w) (mrows X))) y.
  Hypothesis Gr : forall w j, length w = S (mcols X) -> (j < S (mcols X))%nat -> exists c g, rg (with_ones X) y w = Ok (c, g) /\ length g = length w /\
    has_partial_vec (fun q => cost_of (rg (with_ones X) y q)) w j (nth j g 0).
  Hypothesis Sa : smooth_activ a.

  Lemma flat_gradient (net : BaseNeuralNet R) w : nn_layers net = mlp_layers [mcols X; 1%nat] a -> cr_cost (nn_criterion net) = cc -> length w = S (mcols X) ->
    nn_criterion net = MSECriterion RegNone \/ (nn_criterion net = BCECriterion RegNone /\ outputs_between net w X) ->
    exists c g, rg (with_ones X) y w = Ok (c, g) /\ length g = S (mcols X) /\ net_compute_grad net w X (as_column y) = Ok (c, map (Rmult n) g).
  Proof.
    intros HL HC Lw HR.
    assert (DC : forall q, length q = S (mcols X) -> data_cost net X (as_column y) q = cost_of (rg (with_ones X) y q)).
    { intros q Lq. unfold data_cost. rewrite (flat_predict a (set_weights net q) (mcols X) X) by (auto; exact HL). cbn [rbind]. rewrite HC, Cc, Cr; auto.
      rewrite !map_length. unfold nrows in Ly. lia. }
    destruct (gradient_times_rows net (mlp_kinds [mcols X; 1%nat] a) w X (as_column y) 1 RegNone) as (dc & g & E1 & E2 & Lg & HG); auto.
    - discriminate.
    - repeat constructor. exact Sa.
    - cbn. lia.
    - cbn. rewrite Nat.eqb_refl. reflexivity.
    - apply column_wf.
    - rewrite column_rows. exact Ly.
    - destruct (Gr w 0 Lw ltac:(lia)) as (c & g' & R1 & Lg' & _). exists c, g'. split; [exact R1|]. split; [lia|].
      rewrite DC in E1 by auto. rewrite R1 in E1. cbn [cost_of] in E1. apply Ok_inj in E1. subst dc.
      rewrite E2. cbn [reg_cost]. change (@nzero R NumR) with 0. rewrite Rplus_0_r. f_equal. f_equal.
      apply (nth_ext _ _ 0 0); [rewrite map_length; lia|]. intros q Hq. rewrite Lg in Hq. destruct (HG q Hq) as (d & Hd & ->).
      rewrite reg_none_entry, Rplus_0_r. rewrite (nth_map (Rmult n) _ _ _ 0) by lia. unfold n. f_equal.
      destruct (Gr w q Lw ltac:(lia)) as (c2 & g2 & R2 & _ & P2). rewrite R1 in R2. apply Ok_inj in R2. injection R2 as <- <-.
      apply (has_partial_vec_unique (data_cost net X (as_column y)) w q); [exact Hd|].
      destruct P2 as (f & F1 & F2). exists f. split; [|exact F2]. intros x. rewrite DC; [apply F1|]. rewrite vset_length; auto.
  Qed.
End Flat.

Lemma lr_cost_flat X y w : mwf X -> length y = nrows X -> length w = S (mcols X) ->
  cost_of (lr_compute_grad (with_ones X) y w) = mse_cost_vec (map (af LinearAct) (map (affine w) (mrows X))) y.
Proof.
  intros W Ly Lw. unfold lr_compute_grad. rewrite rmat_vec_eq by (cbn; auto). cbn [rbind]. rewrite mat_vec_ones by auto.
  change (af LinearAct) with (fun x : R => x). rewrite map_id. set (o := map (affine w) (mrows X)).
  assert (Lo : length o = length y) by (unfold o; rewrite map_length; unfold nrows in Ly; lia).
  unfold mse_cost_vec, rvsub, rassert. rewrite Lo, Nat.eqb_refl. cbn [rbind].
  rewrite rmat_vec_eq; [reflexivity|]. unfold vsub. rewrite map2_length, Lo, Nat.min_id. cbn. rewrite Ly. unfold nrows, with_ones. cbn. now rewrite map_length.
Qed.
Lemma log_cost_flat X y w : mwf X -> length y = nrows X -> length w = S (mcols X) ->
  cost_of (log_compute_grad (with_ones X) y w) = ce_cost_vec (map (af Sigmoid) (map (affine w) (mrows X))) y.
Proof.
  intros W Ly Lw. unfold log_compute_grad. rewrite rmat_vec_eq by (cbn; auto). cbn [rbind]. rewrite mat_vec_ones by auto.
  change (af Sigmoid) with (@sigmoid R NumR NumFnR). set (o := map sigmoid (map (affine w) (mrows X))).
  assert (Lo : length o = length y) by (unfold o; rewrite !map_length; unfold nrows in Ly; lia).
  unfold ce_cost_vec, rvsub, rassert. rewrite Lo, Nat.eqb_refl. cbn [rbind].
  rewrite rmat_vec_eq; [reflexivity|]. unfold vsub. rewrite map2_length, Lo, Nat.min_id. cbn. rewrite Ly. unfold nrows, with_ones. cbn. now rewrite map_length.
Qed.
Lemma ones_rows (X : matrix R) : nrows (with_ones X) = nrows X.
Proof. unfold nrows, with_ones. cbn. apply map_length. Qed.
Lemma ones_wf (X : matrix R) : mwf X -> mwf (with_ones X).
Proof. unfold mwf, with_ones. cbn. rewrite !Forall_forall. intros H r Hr. apply in_map_iff in Hr. destruct Hr as (x & <- & Hx). cbn. now rewrite (H x Hx). Qed.

(** ** Predictions *)
Theorem flat_log_predict (net : BaseNeuralNet R) X : nn_layers net = mlp_layers [mcols X; 1%nat] Sigmoid -> length (nn_weights net) = S (mcols X) -> mwf X ->
  exists out, log_predict {| log_parameters := Some (nn_weights net) |} X = Ok out /\ net_predict net X = Ok (as_column out).
Proof.
  intros HL Lw W. exists (map sigmoid (map (affine (nn_weights net)) (mrows X))). split; [|now apply (flat_predict Sigmoid net (mcols X))].
  unfold log_predict. cbn [log_parameters]. rewrite rmat_vec_eq by (cbn; auto). cbn [rbind]. rewrite mat_vec_ones by auto. reflexivity.
Qed.
Theorem flat_lr_predict (net : BaseNeuralNet R) X : nn_layers net = mlp_layers [mcols X; 1%nat] LinearAct -> length (nn_weights net) = S (mcols X) -> mwf X ->
  exists out, lr_predict {| lr_parameters := Some (nn_weights net) |} X = Ok out /\ net_predict net X = Ok (as_column out).
Proof.
  intros HL Lw W. exists (map (affine (nn_weights net)) (mrows X)). split.
  - unfold lr_predict. cbn [lr_parameters]. rewrite rmat_vec_eq by (cbn; auto). cbn [rbind]. rewrite mat_vec_ones by auto. reflexivity.
  - rewrite (flat_predict LinearAct net (mcols X)) by auto. change (af LinearAct) with (fun x : R => x). now rewrite map_id.
Qed.

(** ** Gradients *)
Theorem flat_log_gradient (net : BaseNeuralNet R) X y w : nn_layers net = mlp_layers [mcols X; 1%nat] Sigmoid -> nn_criterion net = BCECriterion RegNone ->
  mwf X -> (0 < nrows X)%nat -> length y = nrows X -> length w = S (mcols X) ->
  exists c g, log_compute_grad (with_ones X) y w = Ok (c, g) /\ length g = S (mcols X) /\
    net_compute_grad net w X (as_column y) = Ok (c, map (Rmult (INR (nrows X))) g).
Proof.
  intros HL HC W Hn Ly Lw.
  apply (flat_gradient X y W Hn Ly Sigmoid ce_cost ce_cost_vec log_compute_grad); auto.
  - intros o Lo. now apply ce_column.
  - intros q Lq. now apply log_cost_flat.
  - intros q j Lq Hj. apply log_grad; rewrite ?ones_rows; auto using ones_wf.
  - apply sigmoid_smooth.
  - rewrite HC. reflexivity.
  - right. split; auto. intros Y E i j Hi Hj. rewrite (flat_predict Sigmoid (set_weights net w) (mcols X) X) in E by auto.
    apply Ok_inj in E. subst Y. rewrite column_rows in Hi. unfold entry, as_column in *. cbn in Hj.
    destruct j; [|lia]. cbn [mrows]. rewrite (nth_map (fun w => [w]) _ _ _ 0) by exact Hi. cbn [nth].
    rewrite map_length in Hi. rewrite (nth_map (af Sigmoid) _ _ _ 0) by exact Hi. apply sigmoid_range.
Qed.
Theorem flat_lr_gradient (net : BaseNeuralNet R) X y w : nn_layers net = mlp_layers [mcols X; 1%nat] LinearAct -> nn_criterion net = MSECriterion RegNone ->
  mwf X -> (0 < nrows X)%nat -> length y = nrows X -> length w = S (mcols X) ->
  exists c g, lr_compute_grad (with_ones X) y w = Ok (c, g) /\ length g = S (mcols X) /\
    net_compute_grad net w X (as_column y) = Ok (c, map (Rmult (INR (nrows X))) g).
Proof.
  intros HL HC W Hn Ly Lw.
  apply (flat_gradient X y W Hn Ly LinearAct mse_cost mse_cost_vec lr_compute_grad); auto.
  - intros o Lo. now apply mse_column.
  - intros q Lq. now apply lr_cost_flat.
  - intros q j Lq Hj. apply lr_grad; rewrite ?ones_rows; auto using ones_wf.
  - apply linear_smooth.
  - rewrite HC. reflexivity.
Qed.

(** ** Training with gradient descent *)
Theorem flat_log_train (net : BaseNeuralNet R) X y alpha iters self : nn_layers net = mlp_layers [mcols X; 1%nat] Sigmoid -> nn_criterion net = BCECriterion RegNone ->
  mwf X -> (0 < nrows X)%nat -> length y = nrows X -> nn_weights net = repeat (1 / 2) (S (mcols X)) ->
  exists w, log_train (gd_optimize {| gd_alpha := alpha; gd_iters := iters |}) self X y = ({| log_parameters := Some w |}, Ok tt) /\
    net_train (gd_as_optimizer {| gd_alpha := alpha / INR (nrows X); gd_iters := iters |}) net X (as_column y) = RRet (set_weights net w).
Proof.
  intros HL HC W Hn Ly HW. assert (NN : 0 < INR (nrows X)) by (now apply lt_0_INR).
  assert (Lw : length (nn_weights net) = S (mcols X)) by (rewrite HW; apply repeat_length).
  assert (G : forall w, length w = S (mcols X) -> exists u g, log_compute_grad (with_ones X) y w = Ok (u, g) /\ length g = S (mcols X) /\
     net_compute_grad net w X (as_column y) = Ok (u, map (Rmult (INR (nrows X))) g)).
  { intros w L. now apply flat_log_gradient. }
  assert (T : exists w, gd_loop alpha (log_compute_grad (with_ones X) y) iters (nn_weights net) 0 = Ok w).
  { generalize 0 as e. revert Lw. generalize (nn_weights net) as v. clear - G. induction iters as [|n IH]; intros v Lv e; cbn [gd_loop]; [eauto|].
    destruct (G v Lv) as (u & g & E & Lg & _). rewrite E. cbn [rbind]. destruct (nabs (e - u) <? learning_eps)%num; [eauto|].
    unfold rvsub, rassert. unfold vscale. rewrite map_length, Lv, Lg, Nat.eqb_refl. cbn [rbind]. apply IH.
    unfold vsub. rewrite map2_length, map_length, Lv, Lg. apply Nat.min_id. }
  destruct T as (w & T). exists w. split.
  - unfold log_train, gd_optimize. cbn [gd_alpha gd_iters]. change (mcols (with_ones X)) with (S (mcols X)).
    change (@nonev R NumR / (@nonev R NumR + @nonev R NumR))%num with (1 / (1 + 1)). replace (1 + 1) with 2 by lra. rewrite <- HW.
    change (@nzero R NumR) with 0. rewrite T. reflexivity.
  - unfold net_train, gd_as_optimizer, gd_optimize. cbn [gd_alpha gd_iters].
    rewrite (gd_loop_scaled alpha (alpha / INR (nrows X)) (INR (nrows X)) (log_compute_grad (with_ones X) y) _ (S (mcols X))); auto; try lra; [|field; lra].
    change (@nzero R NumR) with 0. rewrite T. reflexivity.
Qed.
Theorem flat_lr_train (net : BaseNeuralNet R) X y self : nn_layers net = mlp_layers [mcols X; 1%nat] LinearAct -> nn_criterion net = MSECriterion RegNone ->
  mwf X -> (0 < nrows X)%nat -> length y = nrows X -> nn_weights net = repeat 0 (S (mcols X)) ->
  exists w, lr_train_with_optimization self X y = ({| lr_parameters := Some w |}, Ok tt) /\
    net_train (gd_as_optimizer {| gd_alpha := 3 / 10 / INR (nrows X); gd_iters := 100 |}) net X (as_column y) = RRet (set_weights net w).
Proof.
  intros HL HC W Hn Ly HW. assert (NN : 0 < INR (nrows X)) by (now apply lt_0_INR).
  assert (Lw : length (nn_weights net) = S (mcols X)) by (rewrite HW; apply repeat_length).
  assert (G : forall w, length w = S (mcols X) -> exists u g, lr_compute_grad (with_ones X) y w = Ok (u, g) /\ length g = S (mcols X) /\
     net_compute_grad net w X (as_column y) = Ok (u, map (Rmult (INR (nrows X))) g)).
  { intros w L. now apply flat_lr_gradient. }
  assert (T : forall iters, exists w, gd_loop (3 / 10) (lr_compute_grad (with_ones X) y) iters (nn_weights net) 0 = Ok w).
  { intros iters. generalize 0 as e. revert Lw. generalize (nn_weights net) as v. clear - G. induction iters as [|n IH]; intros v Lv e; cbn [gd_loop]; [eauto|].
    destruct (G v Lv) as (u & g & E & Lg & _). rewrite E. cbn [rbind]. destruct (nabs (e - u) <? learning_eps)%num; [eauto|].
    unfold rvsub, rassert. unfold vscale. rewrite map_length, Lv, Lg, Nat.eqb_refl. cbn [rbind]. apply IH.
    unfold vsub. rewrite map2_length, map_length, Lv, Lg. apply Nat.min_id. }
  assert (A : gd_alpha (@gd_default R NumR) = 3 / 10) by (cbn; lra).
  destruct (T 100%nat) as (w & T1). exists w. split.
  - unfold lr_train_with_optimization, gd_optimize. rewrite A. change (gd_iters (@gd_default R NumR)) with 100%nat. change (mcols (with_ones X)) with (S (mcols X)).
    change (@nzero R NumR) with 0. rewrite <- HW. rewrite T1. reflexivity.
  - unfold net_train, gd_as_optimizer, gd_optimize. cbn [gd_alpha gd_iters].
    rewrite (gd_loop_scaled (3 / 10) (3 / 10 / INR (nrows X)) (INR (nrows X)) (lr_compute_grad (with_ones X) y) _ (S (mcols X))); auto; try lra; [|field; lra].
    change (@nzero R NumR) with 0. rewrite T1. reflexivity.
Qed.

Lemma flat_built rng d (c : Criterion R) a : exists net, net_mlp rng [d; 1%nat] c a = Ok net /\
  nn_layers net = mlp_layers [d; 1%nat] a /\ nn_criterion net = c /\ length (nn_weights net) = S d.
Proof.
  eexists. split; [reflexivity|]. split; [reflexivity|]. split; [reflexivity|]. cbn. rewrite app_length. unfold linear_default_params. rewrite map_length, seq_length. cbn. lia.
Qed.
Lemma flat_ex a c v : let X := Mat [[1; 2]; [3; 4]; [0; 5]] 2 in let net := {| nn_layers := mlp_layers [2%nat; 1%nat] a; nn_weights := repeat v 3; nn_criterion := c |} in
  nn_layers net = mlp_layers [mcols X; 1%nat] a /\ nn_criterion net = c /\ nn_weights net = repeat v (S (mcols X)) /\ length (nn_weights net) = S (mcols X) /\
  mwf X /\ (0 < nrows X)%nat /\ length [1; 0; 1] = nrows X.
Proof. cbn. repeat split; auto; try lia. repeat constructor. Qed.
