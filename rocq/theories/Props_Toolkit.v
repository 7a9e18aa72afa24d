(** * C45, C46, C71: regularisation and activation functions
    ([src/learning/toolkit/regularization.rs], [activ_fn.rs]) *)
From Coq Require Import List Arith Lia Bool Reals Lra.
From Verif Require Import Base Num NumFn Linalg Spec_Calc Model_Toolkit Spec_Toolkit Proof_Toolkit.
Import ListNotations.
Local Open Scope R_scope.

(** C45 holds for [L1] (away from zero) and [None]. *)
Theorem C45_l1 : forall (m : matrix R) (x : R) i j, mwf m -> (i < nrows m)%nat -> (j < mcols m)%nat -> entry m i j <> 0 ->
  has_partial (fun w => Ok (reg_cost (RegL1 x) w)) m i j (entry (reg_grad (RegL1 x) m) i j).
Proof. exact l1_partial. Qed.
Print Assumptions C45_l1.
Theorem C45_none : forall (m : matrix R) i j, mwf m -> (i < nrows m)%nat -> (j < mcols m)%nat ->
  has_partial (fun w => Ok (reg_cost RegNone w)) m i j (entry (reg_grad RegNone m) i j).
Proof. exact none_partial. Qed.
Print Assumptions C45_none.
(** It fails for [L2] and [ElasticNet]: the cost uses the norm, the gradient belongs to its square. *)
Theorem C45_refuted_l2 : exists (m : matrix R) x, 0 < x /\ mwf m /\ nrows m = 1%nat /\ mcols m = 1%nat /\ entry m 0 0 <> 0 /\
  ~ has_partial (fun w => Ok (reg_cost (RegL2 x) w)) m 0 0 (entry (reg_grad (RegL2 x) m) 0 0) /\
  ~ has_partial (fun w => Ok (reg_cost (RegElasticNet 0 x) w)) m 0 0 (entry (reg_grad (RegElasticNet 0 x) m) 0 0).
Proof. exact l2_not_derivative. Qed.
Print Assumptions C45_refuted_l2.
Example C45_ex : let m := Mat [[1; -2]; [3; 4]] 2 in mwf m /\ (1 < nrows m)%nat /\ (1 < mcols m)%nat /\ entry m 0 1 <> 0.
Proof. cbn. split; [repeat constructor|]. unfold entry. cbn. repeat split; lia || lra. Qed.

(** C71: what [reg_grad] is the derivative of. *)
Theorem C71_l2_squared_norm : forall (m : matrix R) x i j, mwf m -> (i < nrows m)%nat -> (j < mcols m)%nat ->
  has_partial (fun w => Ok (sq_norm w * x / (2 * INR (nrows w)))) m i j (entry (reg_grad (RegL2 x) m) i j).
Proof. exact l2_partial_sq. Qed.
Print Assumptions C71_l2_squared_norm.
Theorem C71_elastic_net : forall (m : matrix R) x y i j, mwf m -> (i < nrows m)%nat -> (j < mcols m)%nat -> entry m i j <> 0 ->
  has_partial (fun w => Ok (reg_cost (RegL1 x) w + sq_norm w * y / (2 * INR (nrows w)))) m i j (entry (reg_grad (RegElasticNet x y) m) i j).
Proof. exact elastic_partial_sq. Qed.
Print Assumptions C71_elastic_net.
Example C71_ex : let m := Mat [[1; -2]; [3; 4]] 2 in mwf m /\ (1 < nrows m)%nat /\ (1 < mcols m)%nat /\ entry m 1 1 <> 0 /\ sq_norm m = 30.
Proof. cbn. split; [repeat constructor|]. unfold sq_norm, entry. cbn. repeat split; lia || lra. Qed.

(** C46. *)
Theorem C46_sigmoid :
  (forall x, derivable_pt_lim (af Sigmoid) x (af_grad Sigmoid x)) /\ (forall x : R, af_grad_out Sigmoid (af Sigmoid x) = af_grad Sigmoid x) /\
  (forall x : R, af_inv Sigmoid (af Sigmoid x) = x) /\ (forall y, 0 < y < 1 -> af Sigmoid (af_inv Sigmoid y) = y) /\
  (forall x, 0 < af Sigmoid x < 1) /\ increasing_on_R (af Sigmoid).
Proof. exact sigmoid_ok. Qed.
Print Assumptions C46_sigmoid.
Theorem C46_tanh :
  (forall x, derivable_pt_lim (af Tanh) x (af_grad Tanh x)) /\ (forall x : R, af_grad_out Tanh (af Tanh x) = af_grad Tanh x) /\
  (forall x : R, af_inv Tanh (af Tanh x) = x) /\ (forall y, -1 < y < 1 -> af Tanh (af_inv Tanh y) = y) /\
  (forall x, -1 < af Tanh x < 1) /\ increasing_on_R (af Tanh).
Proof. exact tanh_ok. Qed.
Print Assumptions C46_tanh.
Theorem C46_exp :
  (forall x, derivable_pt_lim (af Exp) x (af_grad Exp x)) /\ (forall x : R, af_grad_out Exp (af Exp x) = af_grad Exp x) /\
  (forall x : R, af_inv Exp (af Exp x) = x) /\ (forall y, 0 < y -> af Exp (af_inv Exp y) = y) /\
  (forall x, 0 < af Exp x) /\ increasing_on_R (af Exp).
Proof. exact exp_ok. Qed.
Print Assumptions C46_exp.
Theorem C46_linear :
  (forall x, derivable_pt_lim (af (F := R) LinearAct) x (af_grad LinearAct x)) /\ (forall x : R, af_grad_out LinearAct (af LinearAct x) = af_grad LinearAct x) /\
  (forall x : R, af_inv LinearAct (af LinearAct x) = x) /\ (forall y : R, af LinearAct (af_inv LinearAct y) = y) /\ increasing_on_R (af LinearAct).
Proof. exact linear_ok. Qed.
Print Assumptions C46_linear.
Example C46_ex : af Sigmoid 0 = 1 / 2 /\ af_grad Sigmoid 0 = 1 / 4 /\ af Tanh 0 = 0.
Proof.
  cbn. unfold tanh, sinh. rewrite ?Ropp_0, exp_0. repeat split; lra.
Qed.
