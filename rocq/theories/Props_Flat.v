(** * C153: a network without hidden layers is a regression *)
From Coq Require Import List Arith Reals.
From Verif Require Import Base Num NumFn Linalg Model_Toolkit Model_Rand Model_Optim Model_Cost Model_Regression Model_NNet Proof_Flat.
Import ListNotations.
Local Open Scope R_scope.

Theorem C153_built : forall rng d (c : Criterion R) a, exists net, net_mlp rng [d; 1%nat] c a = Ok net /\
  nn_layers net = mlp_layers [d; 1%nat] a /\ nn_criterion net = c /\ length (nn_weights net) = S d.
Proof. exact flat_built. Qed.
Print Assumptions C153_built.

Theorem C153_logistic_predictions : forall (net : BaseNeuralNet R) X,
  nn_layers net = mlp_layers [mcols X; 1%nat] Sigmoid -> length (nn_weights net) = S (mcols X) -> mwf X ->
  exists out, log_predict {| log_parameters := Some (nn_weights net) |} X = Ok out /\ net_predict net X = Ok (as_column out).
Proof. exact flat_log_predict. Qed.
Print Assumptions C153_logistic_predictions.

Theorem C153_linear_predictions : forall (net : BaseNeuralNet R) X,
  nn_layers net = mlp_layers [mcols X; 1%nat] LinearAct -> length (nn_weights net) = S (mcols X) -> mwf X ->
  exists out, lr_predict {| lr_parameters := Some (nn_weights net) |} X = Ok out /\ net_predict net X = Ok (as_column out).
Proof. exact flat_lr_predict. Qed.
Print Assumptions C153_linear_predictions.

Theorem C153_logistic_gradient : forall (net : BaseNeuralNet R) X y w,
  nn_layers net = mlp_layers [mcols X; 1%nat] Sigmoid -> nn_criterion net = BCECriterion RegNone ->
  mwf X -> (0 < nrows X)%nat -> length y = nrows X -> length w = S (mcols X) ->
  exists c g, log_compute_grad (with_ones X) y w = Ok (c, g) /\ length g = S (mcols X) /\
    net_compute_grad net w X (as_column y) = Ok (c, map (Rmult (INR (nrows X))) g).
Proof. exact flat_log_gradient. Qed.
Print Assumptions C153_logistic_gradient.

Theorem C153_linear_gradient : forall (net : BaseNeuralNet R) X y w,
  nn_layers net = mlp_layers [mcols X; 1%nat] LinearAct -> nn_criterion net = MSECriterion RegNone ->
  mwf X -> (0 < nrows X)%nat -> length y = nrows X -> length w = S (mcols X) ->
  exists c g, lr_compute_grad (with_ones X) y w = Ok (c, g) /\ length g = S (mcols X) /\
    net_compute_grad net w X (as_column y) = Ok (c, map (Rmult (INR (nrows X))) g).
Proof. exact flat_lr_gradient. Qed.
Print Assumptions C153_linear_gradient.

Theorem C153_logistic_training : forall (net : BaseNeuralNet R) X y alpha iters self,
  nn_layers net = mlp_layers [mcols X; 1%nat] Sigmoid -> nn_criterion net = BCECriterion RegNone ->
  mwf X -> (0 < nrows X)%nat -> length y = nrows X -> nn_weights net = repeat (1 / 2) (S (mcols X)) ->
  exists w, log_train (gd_optimize {| gd_alpha := alpha; gd_iters := iters |}) self X y = ({| log_parameters := Some w |}, Ok tt) /\
    net_train (gd_as_optimizer {| gd_alpha := alpha / INR (nrows X); gd_iters := iters |}) net X (as_column y) = RRet (set_weights net w).
Proof. exact flat_log_train. Qed.
Print Assumptions C153_logistic_training.

Theorem C153_linear_training : forall (net : BaseNeuralNet R) X y self,
  nn_layers net = mlp_layers [mcols X; 1%nat] LinearAct -> nn_criterion net = MSECriterion RegNone ->
  mwf X -> (0 < nrows X)%nat -> length y = nrows X -> nn_weights net = repeat 0 (S (mcols X)) ->
  exists w, lr_train_with_optimization self X y = ({| lr_parameters := Some w |}, Ok tt) /\
    net_train (gd_as_optimizer {| gd_alpha := 3 / 10 / INR (nrows X); gd_iters := 100 |}) net X (as_column y) = RRet (set_weights net w).
Proof. exact flat_lr_train. Qed.
Print Assumptions C153_linear_training.

(** A case that meets the hypotheses of the theorems above, for every activation, criterion and starting value. *)
Example C153_ex : forall a c v, let X := Mat [[1; 2]; [3; 4]; [0; 5]] 2 in
  let net := {| nn_layers := mlp_layers [2%nat; 1%nat] a; nn_weights := repeat v 3; nn_criterion := c |} in
  nn_layers net = mlp_layers [mcols X; 1%nat] a /\ nn_criterion net = c /\ nn_weights net = repeat v (S (mcols X)) /\ length (nn_weights net) = S (mcols X) /\
  mwf X /\ (0 < nrows X)%nat /\ length [1; 0; 1] = nrows X.
Proof. exact flat_ex. Qed.
