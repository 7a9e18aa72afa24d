(** * C164, C165: how much answers can change; what depth adds without an activation *)
From Coq Require Import List Arith Reals.
From Verif Require Import Base Num NumFn Linalg Model_Toolkit Model_Regression Model_NNet Model_KNN Spec_Regression Spec_Succeeds Spec_NNet Proof_Oracles Proof_SucceedsEx
  Proof_KNNEx Spec_LSStats Proof_LSStatsEx Spec_Small Proof_Small Proof_SmallEx.
Import ListNotations.
Local Open Scope R_scope.

(** C164: two rows of a matrix given to [predict] of a network get answers no further apart than the rows times the product of
    the lengths of the layers' weights and the activations' constants. *)
Theorem C164_network : forall (net : BaseNeuralNet R) ks X c L,
  nn_layers net = map to_layer ks -> length (nn_weights net) = total_params ks -> mwf X -> widths ks (mcols X) = Some c ->
  stretch ks (nn_weights net) L ->
  exists Y, net_predict net X = Ok Y /\ nrows Y = nrows X /\ mcols Y = c /\
    forall i i', (i < nrows X)%nat -> (i' < nrows X)%nat -> gap c (mrow Y i) (mrow Y i') <= L * gap (mcols X) (mrow X i) (mrow X i').
Proof. exact net_small. Qed.
Print Assumptions C164_network.
Example C164_network_ex : length w_small = total_params ks_small /\ mwf X_small /\ widths ks_small (mcols X_small) = Some 1%nat /\
  stretch ks_small w_small (5 / 4).
Proof. exact case_net. Qed.

(** C164: the constants of the crate's activations; [Exp] has none. *)
Theorem C164_activations : gentle Sigmoid (1 / 4) /\ gentle Tanh 1 /\ gentle LinearAct 1 /\ forall c, ~ gentle Exp c.
Proof. exact gentle_crate. Qed.
Print Assumptions C164_activations.
Example C164_activations_ex : Rabs (af Sigmoid 1 - af Sigmoid 0) <= 1 / 4 * Rabs (1 - 0).
Proof. exact (proj2 (proj1 gentle_crate) 1 0). Qed.

(** C164: the same for linear regression, with the length of the slopes. *)
Theorem C164_linear : forall (self : LinRegressor R) p X, lr_parameters self = Some p -> mwf X -> length p = S (mcols X) ->
  exists out, lr_predict self X = Ok out /\ length out = nrows X /\
    forall i i', (i < nrows X)%nat -> (i' < nrows X)%nat ->
      Rabs (nth i out 0 - nth i' out 0) <= slope_len (mcols X) p * gap (mcols X) (mrow X i) (mrow X i').
Proof. exact lin_small. Qed.
Print Assumptions C164_linear.
Example C164_linear_ex : mwf X_small /\ length [1; 2; 3] = S (mcols X_small).
Proof. exact (conj (proj1 (proj2 case_net)) eq_refl). Qed.

(** C164: the same for the probabilities of logistic regression, with a quarter of the length of the slopes. *)
Theorem C164_logistic : forall (self : LogisticRegressor R) p X, log_parameters self = Some p -> mwf X -> length p = S (mcols X) ->
  exists out, log_predict self X = Ok out /\ length out = nrows X /\
    forall i i', (i < nrows X)%nat -> (i' < nrows X)%nat ->
      Rabs (nth i out 0 - nth i' out 0) <= slope_len (mcols X) p / 4 * gap (mcols X) (mrow X i) (mrow X i').
Proof. exact log_small. Qed.
Print Assumptions C164_logistic.
Example C164_logistic_ex : mwf X_small /\ length [1; 2; 3] = S (mcols X_small).
Proof. exact (conj (proj1 (proj2 case_net)) eq_refl). Qed.

(** C164: training a linear regression on the same inputs with other targets moves the predictions for those inputs, taken
    together, no further than the targets moved. *)
Theorem C164_targets : forall solve (X : matrix R) y y' p p', solver_sound solve -> mwf X -> learns solve X y p -> learns solve X y' p' ->
  sumR (nrows X) (fun i => (affine p (mrow X i) - affine p' (mrow X i)) ^ 2) <= sumR (nrows X) (fun i => (nth i y 0 - nth i y' 0) ^ 2).
Proof. exact targets_small. Qed.
Print Assumptions C164_targets.
Example C164_targets_ex : solver_exact solve_any /\ mwf X3 /\ (exists p, learns solve_any X3 [1; 4; 2] p) /\ exists p', learns solve_any X3 (indicator 3 1) p'.
Proof. exact case_targets. Qed.

(** C164: moving the query moves each of the [k] distances reported by the nearest-neighbour search no further than the query
    was moved. *)
Theorem C164_neighbours : forall (data : matrix R) x x' k, mwf data -> length x = mcols data -> length x' = mcols data -> (1 <= k <= nrows data)%nat ->
  exists idx ds idx' ds', brute_search (Some data) x k = Ok (idx, ds) /\ brute_search (Some data) x' k = Ok (idx', ds') /\
    length ds = k /\ length ds' = k /\ forall t, (t < k)%nat -> Rabs (nth t ds 0 - nth t ds' 0) <= gap (mcols data) x x'.
Proof. exact knn_small. Qed.
Print Assumptions C164_neighbours.
Example C164_neighbours_ex : mwf X_small /\ length [0; 1] = mcols X_small /\ length [3; 3] = mcols X_small /\ (1 <= 2 <= nrows X_small)%nat.
Proof. exact (conj (proj1 (proj2 case_net)) (conj eq_refl (conj eq_refl (conj (le_S _ _ (le_n 1)) (le_S _ _ (le_n 2)))))). Qed.

(** C165: a stack of linear layers without a non-linear activation between them predicts exactly what a single linear layer
    with suitable weights predicts, on every input. *)
Theorem C165_depth : forall (net : BaseNeuralNet R) ks d c,
  nn_layers net = map to_layer ks -> length (nn_weights net) = total_params ks -> widths ks d = Some c -> all_linear ks ->
  exists w', length w' = ((1 + d) * c)%nat /\ forall X, mwf X -> mcols X = d ->
    net_predict net X = net_predict {| nn_layers := [linear_layer (linear_new d c)]; nn_weights := w'; nn_criterion := nn_criterion net |} X.
Proof. exact linear_depth. Qed.
Print Assumptions C165_depth.
Example C165_depth_ex : length w_lin = total_params ks_lin /\ widths ks_lin 2 = Some 1%nat /\ all_linear ks_lin /\
  exists x y, net_row ks_lin w_lin x = [y] /\ length x = 2%nat /\ y <> 0.
Proof. exact case_lin. Qed.
