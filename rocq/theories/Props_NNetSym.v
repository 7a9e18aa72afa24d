(** * C148, C149: the numbering of the units of a network ([src/learning/nnet/mod.rs], [net_layer.rs]) *)
From Coq Require Import List Arith Bool Permutation Reals.
From Verif Require Import Base Num NumFn Linalg Model_Rand Model_Toolkit Model_Optim Model_Cost Model_CG Model_NNet Spec_NNet Spec_OptEq Spec_DBSCAN2 Spec_NNetSym Proof_NNetSym Proof_NNetSym3.
Import ListNotations.
Local Open Scope R_scope.

(** C148: a relabelling of the units only moves weights about. *)
Theorem C148_moves_weights : forall (F : Type) (ks : list (LayerKind F)) p qs n c, Permutation p (seq 0 n) -> orders_fit ks qs -> widths ks n = Some c ->
  Permutation (weight_order ks p qs) (seq 0 (total_params ks)) /\ Permutation (output_order ks p qs) (seq 0 c).
Proof. exact (fun F ks => weight_order_perm ks). Qed.
Print Assumptions C148_moves_weights.
Example C148_ex : Permutation [1; 0]%nat (seq 0 2) /\ orders_fit ks221 [[1; 0]]%nat /\ widths ks221 2 = Some 1%nat /\
  arrange (weight_order ks221 [1; 0]%nat [[1; 0]]%nat) w221 = [2; 1; 6; 5; 4; 3; 7; 9; 8] /\ output_order ks221 [1; 0]%nat [[1; 0]]%nat = [0]%nat.
Proof. exact (conj (proj1 (proj2 (proj2 (proj2 (proj2 (proj2 ks221_ok)))))) (conj (proj1 (proj2 (proj2 (proj2 (proj2 ks221_ok))))) (conj (proj1 (proj2 (proj2 (proj2 ks221_ok)))) order221))). Qed.
(** C148: predictions are the same, up to the order of the outputs. *)
Theorem C148_predictions : forall (net : BaseNeuralNet R) ks p qs X c, nn_layers net = map to_layer ks -> length (nn_weights net) = total_params ks -> mwf X ->
  widths ks (mcols X) = Some c -> Permutation p (seq 0 (mcols X)) -> orders_fit ks qs ->
  exists Y, net_predict net X = Ok Y /\
    net_predict (set_weights net (arrange (weight_order ks p qs) (nn_weights net))) (map_rows (mcols X) (arrange p) X) = Ok (map_rows c (arrange (output_order ks p qs)) Y).
Proof. exact relabelled_predict. Qed.
Print Assumptions C148_predictions.
(** C148: training with any optimiser of the crate, for the same random draws, gives the relabelled weights. *)
Theorem C148_training : forall opt (net : BaseNeuralNet R) ks r p qs X T c, crate_optimiser opt -> nn_layers net = map to_layer ks -> ks <> [] -> Forall smooth_kind ks ->
  proper_criterion net ks r -> length (nn_weights net) = total_params ks -> mwf X -> (0 < nrows X)%nat -> widths ks (mcols X) = Some c ->
  mwf T -> nrows T = nrows X -> mcols T = c -> Permutation p (seq 0 (mcols X)) -> orders_fit ks qs ->
  net_train opt (set_weights net (arrange (weight_order ks p qs) (nn_weights net))) (map_rows (mcols X) (arrange p) X) (map_rows c (arrange (output_order ks p qs)) T) =
    (let! m := net_train opt net X T in RRet (set_weights m (arrange (weight_order ks p qs) (nn_weights m)))).
Proof. exact relabelled_train. Qed.
Print Assumptions C148_training.
Example C148_ex_net : nn_layers (net221 w221 (RegL2 1)) = map to_layer ks221 /\ ks221 <> [] /\ Forall smooth_kind ks221 /\ proper_criterion (net221 w221 (RegL2 1)) ks221 (RegL2 1) /\
  length (nn_weights (net221 w221 (RegL2 1))) = total_params ks221.
Proof. exact (conj eq_refl (conj (proj1 ks221_ok) (conj (proj1 (proj2 ks221_ok)) (conj (proj2 (proj2 (proj2 (proj2 (proj2 (proj2 ks221_ok))))) w221 (RegL2 1)) eq_refl)))). Qed.

(** C149: hidden units that start alike stay alike: a relabelling of hidden units that does not change the start does not change
    the trained weights. *)
Theorem C149_stay_alike : forall opt (net m : BaseNeuralNet R) ks r qs X T c, crate_optimiser opt -> nn_layers net = map to_layer ks -> ks <> [] -> Forall smooth_kind ks ->
  proper_criterion net ks r -> length (nn_weights net) = total_params ks -> mwf X -> (0 < nrows X)%nat -> widths ks (mcols X) = Some c ->
  mwf T -> nrows T = nrows X -> mcols T = c -> orders_fit ks qs -> output_order ks (seq 0 (mcols X)) qs = seq 0 c ->
  arrange (weight_order ks (seq 0 (mcols X)) qs) (nn_weights net) = nn_weights net ->
  outcome (net_train opt net X T) (Some m) -> arrange (weight_order ks (seq 0 (mcols X)) qs) (nn_weights m) = nn_weights m.
Proof. exact alike_stay_alike. Qed.
Print Assumptions C149_stay_alike.
(** For the swap of the hidden units of a 2-2-1 network, being unchanged means that both units have the same weights. *)
Example C149_ex : output_order ks221 (seq 0 2) [[1; 0]]%nat = seq 0 1 /\ arrange (weight_order ks221 (seq 0 2) [[1; 0]]%nat) twin221 = twin221 /\
  forall v, length v = 9%nat -> (arrange (weight_order ks221 (seq 0 2) [[1; 0]]%nat) v = v <-> nth 0 v 0 = nth 1 v 0 /\ nth 2 v 0 = nth 3 v 0 /\ nth 4 v 0 = nth 5 v 0 /\ nth 7 v 0 = nth 8 v 0).
Proof. exact twins221. Qed.
(** With equal weights at the start all hidden units of a layer stay alike. *)
Theorem C149_constant_start : forall opt (net m : BaseNeuralNet R) ks r qs X T c x, crate_optimiser opt -> nn_layers net = map to_layer ks -> ks <> [] -> Forall smooth_kind ks ->
  proper_criterion net ks r -> nn_weights net = repeat x (total_params ks) -> mwf X -> (0 < nrows X)%nat -> widths ks (mcols X) = Some c ->
  mwf T -> nrows T = nrows X -> mcols T = c -> orders_fit ks qs -> output_order ks (seq 0 (mcols X)) qs = seq 0 c ->
  outcome (net_train opt net X T) (Some m) -> arrange (weight_order ks (seq 0 (mcols X)) qs) (nn_weights m) = nn_weights m.
Proof. exact constant_start. Qed.
Print Assumptions C149_constant_start.
