(** * Concrete networks *)
From Coq Require Import List Arith Lia Bool Reals Lra.
From Verif Require Import Base BaseLemmas Num NumFn Linalg LinalgR Spec_Calc CalcR Model_Toolkit Model_Optim Model_Cost
  Model_NNet Spec_NNet Proof_Toolkit Proof_NNet Proof_NNet2 Proof_NNet3 Proof_NNet4 Proof_NNet5.
Import ListNotations.
Local Open Scope R_scope.

(** One weight, no bias: y = w x. *)
Definition ks1 : list (LayerKind R) := [KLinear 1 1 false].
Definition net1 (r : Regularization R) : BaseNeuralNet R :=
  {| nn_layers := map to_layer ks1; nn_weights := [1]; nn_criterion := MSECriterion r |}.
Definition X2 : matrix R := Mat [[1]; [1]] 1.
Definition T2 : matrix R := Mat [[0]; [0]] 1.
Definition X1 : matrix R := Mat [[0]] 1.

Lemma X2_wf : mwf X2 /\ mwf T2 /\ mwf X1.
Proof. repeat constructor. Qed.
Lemma ks1_smooth : Forall smooth_kind ks1.
Proof. repeat constructor. Qed.

Lemma data_cost2 x : data_cost (net1 RegNone) X2 T2 [x] = Ok (x * x / 2).
Proof.
  unfold data_cost. rewrite (predict_rows _ ks1 X2 1); try reflexivity; [|repeat constructor].
  cbn [rbind set_weights nn_criterion net1 MSECriterion cr_cost]. unfold mse_cost. cbn. f_equal. field.
Qed.
Lemma sq_half_deriv x : derivable_pt_lim (fun y => y * y / 2) x x.
Proof.
  apply (dlim_ext (fun y => / 2 * (y * y))); [intros; field|].
  replace x with (/ 2 * (1 * x + x * 1)) at 2 by field.
  apply derivable_pt_lim_scal. apply (derivable_pt_lim_mult id id); apply derivable_pt_lim_id.
Qed.
Lemma batch_example : has_partial_vec (data_cost (net1 RegNone) X2 T2) [1] 0 1.
Proof. exists (fun x => x * x / 2). split; [intros x; apply data_cost2|]. apply sq_half_deriv. Qed.

(** With [L2] regularisation, on a data set that contributes nothing. *)
Lemma data_cost1 v r : data_cost (net1 r) X1 X1 [v] = Ok 0.
Proof.
  unfold data_cost. rewrite (predict_rows _ ks1 X1 1); try reflexivity; [|repeat constructor].
  cbn [rbind set_weights nn_criterion net1 MSECriterion cr_cost]. unfold mse_cost. cbn. f_equal. field.
Qed.
Lemma grad1 v r : exists g, net_compute_grad (net1 r) [v] X1 X1 = Ok (reg_cost r (Mat [[v]] 1), g) /\
  nth 0 g 0 = entry (reg_grad r (Mat [[v]] 1)) 0 0.
Proof.
  destruct X2_wf as (_ & _ & W1).
  destruct (gradient_times_rows (net1 r) ks1 [v] X1 X1 1 r) as (dc & g & E1 & E2 & Lg & HG); auto using ks1_smooth; try discriminate.
  rewrite data_cost1 in E1. apply Ok_inj in E1. subst dc. exists g. rewrite Rplus_0_l in E2. split; [exact E2|].
  destruct (HG 0%nat) as (d & Hd & ->); [cbn; lia|].
  assert (D0 : has_partial_vec (data_cost (net1 r) X1 X1) [v] 0 0).
  { exists (fun _ => 0). split; [intros x; apply data_cost1|apply derivable_pt_lim_const]. }
  rewrite (has_partial_vec_unique _ _ _ _ _ Hd D0). change (as_column [v]) with (Mat [[v]] 1). ring.
Qed.
Theorem l2_gradient_wrong : exists g c, net_compute_grad (net1 (RegL2 1)) [1] X1 X1 = Ok (c, g) /\ nth 0 g 0 = 1 /\
  has_partial_vec (fun v => let? (c, _) := net_compute_grad (net1 (RegL2 1)) v X1 X1 in Ok c) [1] 0 (1 / 2).
Proof.
  destruct (grad1 1 (RegL2 1)) as (g & E & Hg). exists g. eexists. split; [exact E|]. split.
  - rewrite Hg. unfold entry. cbn. field.
  - exists (fun x => Rabs x * 1 / 2). split.
    + intros x. destruct (grad1 x (RegL2 1)) as (g' & E' & _). cbn [vset]. rewrite E'. cbn [rbind]. f_equal. apply l2_norm_value.
    + apply (dlim_ext (fun x => / 2 * Rabs x)); [intros; field|]. cbn [nth].
      replace (1 / 2) with (/ 2 * (if Rlt_dec 1 0 then -1 else 1)) by (destruct (Rlt_dec 1 0); [lra|field]).
      apply derivable_pt_lim_scal. apply rabs_deriv. lra.
Qed.

(** Two layers with a bias: y = 1 + 2 x1 + 3 x2. *)
Definition ks2 : list (LayerKind R) := [KLinear 2 1 true; KActiv LinearAct].
Definition net2 : BaseNeuralNet R := {| nn_layers := map to_layer ks2; nn_weights := [1; 2; 3]; nn_criterion := MSECriterion RegNone |}.
Lemma net2_predict : net_predict net2 (Mat [[4; 5]] 2) = Ok (Mat [[24]] 1).
Proof.
  rewrite (predict_rows _ ks2 _ 1); try reflexivity; [|repeat constructor].
  cbn. do 4 f_equal. ring.
Qed.
