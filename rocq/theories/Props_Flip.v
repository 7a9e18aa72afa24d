(** * C181, C182: the signs of the units of a network ([src/learning/nnet/mod.rs], [net_layer.rs], [toolkit/activ_fn.rs]) *)
From Coq Require Import List Arith Bool Reals.
From Verif Require Import Base Num NumFn Linalg Model_Rand Model_Toolkit Model_Optim Model_Cost Model_CG Model_NNet Spec_NNet Spec_NNetSym Proof_NNetSym3 Spec_Flip Proof_Flip Proof_Flip3.
Import ListNotations.
Local Open Scope R_scope.

(** C181: which activations pass a change of sign on. *)
Theorem C181_activations : odd_activ Tanh /\ odd_activ LinearAct /\ ~ odd_activ Sigmoid /\ ~ odd_activ Exp.
Proof. exact odd_activs. Qed.
Print Assumptions C181_activations.
(** C181: changing the signs of units, by changing those of the weights that join them to other units and of their biases, changes
    predictions only in the signs of the outputs concerned; if these are hidden units only, not at all. *)
Theorem C181_predictions : forall (net : BaseNeuralNet R) ks p ss X c, nn_layers net = map to_layer ks -> length (nn_weights net) = total_params ks -> mwf X ->
  widths ks (mcols X) = Some c -> length p = mcols X -> signs_fit ks p ss ->
  exists Y, net_predict net X = Ok Y /\
    net_predict (set_weights net (flipped (weight_signs ks p ss) (nn_weights net))) (flip_rows p X) = Ok (flip_rows (output_signs ks p ss) Y).
Proof. exact flipped_predict. Qed.
Print Assumptions C181_predictions.
Example C181_ex : nn_layers (nett w221 (RegL2 1)) = map to_layer kst /\ length w221 = total_params kst /\ signs_fit kst [true; false] [[true; false]; [true]] /\
  flipped (weight_signs kst [true; false] [[true; false]; [true]]) w221 = [-1; 2; 3; - (4); -5; 6; -7; 8; -9] /\ output_signs kst [true; false] [[true; false]; [true]] = [true].
Proof. exact (conj eq_refl (conj eq_refl (conj (proj1 (proj2 (proj2 (proj2 (proj2 kst_ok))))) flip_t))). Qed.
(** C181: training with any optimiser of the crate, for the same random draws, gives the weights with the same signs changed. *)
Theorem C181_training : forall opt (net : BaseNeuralNet R) ks r p ss X T c, crate_optimiser opt -> nn_layers net = map to_layer ks -> ks <> [] -> Forall smooth_kind ks ->
  proper_criterion net ks r -> even_reg r -> length (nn_weights net) = total_params ks -> mwf X -> (0 < nrows X)%nat -> widths ks (mcols X) = Some c ->
  mwf T -> nrows T = nrows X -> mcols T = c -> length p = mcols X -> signs_fit ks p ss ->
  net_train opt (set_weights net (flipped (weight_signs ks p ss) (nn_weights net))) (flip_rows p X) (flip_rows (output_signs ks p ss) T) =
    (let! m := net_train opt net X T in RRet (set_weights m (flipped (weight_signs ks p ss) (nn_weights m)))).
Proof. exact flipped_train. Qed.
Print Assumptions C181_training.
Example C181_ex_train : kst <> [] /\ Forall smooth_kind kst /\ proper_criterion (nett w221 (RegL2 1)) kst (RegL2 1) /\ even_reg (RegL2 1) /\ widths kst 2 = Some 1%nat.
Proof. exact (conj (proj1 kst_ok) (conj (proj1 (proj2 kst_ok)) (conj (proj1 (proj2 (proj2 (proj2 (proj2 (proj2 (proj2 kst_ok)))))) w221 (RegL2 1)) (conj I eq_refl)))). Qed.

(** C182: weights of hidden units that are all zero stay zero: the weights that a change of signs of hidden units would change. *)
Theorem C182_stay_zero : forall opt (net m : BaseNeuralNet R) ks r ss X T c, crate_optimiser opt -> nn_layers net = map to_layer ks -> ks <> [] -> Forall smooth_kind ks ->
  proper_criterion net ks r -> even_reg r -> length (nn_weights net) = total_params ks -> mwf X -> (0 < nrows X)%nat -> widths ks (mcols X) = Some c ->
  mwf T -> nrows T = nrows X -> mcols T = c ->
  signs_fit ks (repeat false (mcols X)) ss -> ~ In true (output_signs ks (repeat false (mcols X)) ss) ->
  (forall k, nth k (weight_signs ks (repeat false (mcols X)) ss) false = true -> nth k (nn_weights net) 0 = 0) ->
  outcome (net_train opt net X T) (Some m) ->
  forall k, nth k (weight_signs ks (repeat false (mcols X)) ss) false = true -> nth k (nn_weights m) 0 = 0.
Proof. exact dead_weights. Qed.
Print Assumptions C182_stay_zero.
(** For hidden unit 0 of a 2-2-1 network: its bias, its weights from the two inputs, and its weight to the output. *)
Example C182_ex : weight_signs kst [false; false] [[true; false]] = [true; false; true; false; true; false; false; true; false] /\
  output_signs kst [false; false] [[true; false]] = [false] /\ forall k, nth k (weight_signs kst [false; false] [[true; false]]) false = true -> nth k dead_t 0 = 0.
Proof. exact dead_ok. Qed.
(** C182: a network whose first two linear layers start at zero answers the same for every input, however it is trained. *)
Theorem C182_zero_start : forall opt (net m : BaseNeuralNet R) d h a b b' o ks r X T c, crate_optimiser opt ->
  nn_layers net = map to_layer (KLinear d h b :: KActiv a :: KLinear h o b' :: ks) -> odd_activ a -> smooth_activ a -> Forall smooth_kind ks ->
  proper_criterion net (KLinear d h b :: KActiv a :: KLinear h o b' :: ks) r -> even_reg r ->
  length (nn_weights net) = total_params (KLinear d h b :: KActiv a :: KLinear h o b' :: ks) ->
  (forall k, (k < (bias_rows b + d) * h + (bias_rows b' + h) * o)%nat -> nth k (nn_weights net) 0 = 0) ->
  mwf X -> (0 < nrows X)%nat -> mcols X = d -> widths ks o = Some c -> mwf T -> nrows T = nrows X -> mcols T = c ->
  outcome (net_train opt net X T) (Some m) ->
  forall Q, mwf Q -> mcols Q = d -> exists y, net_predict m Q = Ok {| mrows := repeat y (nrows Q); mcols := c |}.
Proof. exact zero_start. Qed.
Print Assumptions C182_zero_start.
Example C182_ex_zero : nn_layers (nett (repeat 0 9) (RegL2 1)) = map to_layer kst /\ length (repeat 0 9) = total_params kst /\ forall k, nth k (repeat 0 9) 0 = 0.
Proof. exact (conj eq_refl (conj eq_refl (fun k => nth_repeat 0 9 k))). Qed.
