(** * C187: the gradient of a network sample by sample ([src/learning/nnet/mod.rs], [src/learning/toolkit/cost_fn.rs]) *)
From Coq Require Import List Arith Permutation Reals.
From Verif Require Import Base Num NumFn Linalg Model_Rand Model_Toolkit Model_Optim Model_Cost Model_NNet Spec_NNet Spec_NNetSym Spec_Equiv Proof_NNetSym3 Proof_Flip3 Spec_NetSum Proof_NetSum.
Import ListNotations.
Local Open Scope R_scope.

(** C187: without regularisation the cost of a batch is the mean of the costs of its samples, and the gradient is the sum (not the mean) of their gradients. *)
Theorem C187_gradient_is_sum : forall (net : BaseNeuralNet R) ks d c, nn_layers net = map to_layer ks -> ks <> [] -> Forall smooth_kind ks -> widths ks d = Some c ->
  proper_criterion net ks RegNone -> forall w l, length w = total_params ks -> samples_fit d c l -> l <> [] -> exists G : sample -> R * list R,
    (forall p, In p l -> net_compute_grad net w (xs_of d [p]) (ts_of c [p]) = Ok (G p) /\ length (snd (G p)) = total_params ks) /\
    net_compute_grad net w (xs_of d l) (ts_of c l) = Ok (total_over (fun p => fst (G p)) l / INR (length l),
      map (fun q => total_over (fun p => nth q (snd (G p)) 0) l) (seq 0 (total_params ks))).
Proof. exact net_gradient_sum. Qed.
Print Assumptions C187_gradient_is_sum.

(** C187: with every sample [k] times, in any order, the cost is the same and the gradient [k] times as long. *)
Theorem C187_repeated_gradient : forall (net : BaseNeuralNet R) ks d c, nn_layers net = map to_layer ks -> ks <> [] -> Forall smooth_kind ks -> widths ks d = Some c ->
  proper_criterion net ks RegNone -> forall w k l l', length w = total_params ks -> samples_fit d c l -> l <> [] -> (0 < k)%nat -> Permutation l' (times k l) -> exists cost g,
    net_compute_grad net w (xs_of d l) (ts_of c l) = Ok (cost, g) /\ length g = total_params ks /\
    net_compute_grad net w (xs_of d l') (ts_of c l') = Ok (cost, map (Rmult (INR k)) g).
Proof. exact net_gradient_repeat. Qed.
Print Assumptions C187_repeated_gradient.

(** C187: gradient descent on them learns the same with a [k] times smaller learning rate. *)
Theorem C187_repeated_training : forall (net : BaseNeuralNet R) ks d c, nn_layers net = map to_layer ks -> ks <> [] -> Forall smooth_kind ks -> widths ks d = Some c ->
  proper_criterion net ks RegNone -> forall alpha iters k l l', length (nn_weights net) = total_params ks -> samples_fit d c l -> l <> [] -> (0 < k)%nat -> Permutation l' (times k l) ->
  net_train (gd_as_optimizer {| gd_alpha := alpha / INR k; gd_iters := iters |}) net (xs_of d l') (ts_of c l') =
  net_train (gd_as_optimizer {| gd_alpha := alpha; gd_iters := iters |}) net (xs_of d l) (ts_of c l).
Proof. exact net_train_repeat. Qed.
Print Assumptions C187_repeated_training.
Example C187_ex : let l := [([1; 2], [3]); ([4; 5], [6])] in nn_layers (nett w221 RegNone) = map to_layer kst /\ kst <> [] /\ Forall smooth_kind kst /\ widths kst 2 = Some 1%nat /\
  proper_criterion (nett w221 RegNone) kst RegNone /\ length w221 = total_params kst /\ samples_fit 2 1 l /\
  Permutation [([1; 2], [3]); ([1; 2], [3]); ([4; 5], [6]); ([4; 5], [6])] (times 2 l).
Proof.
  cbn zeta. split; [reflexivity|]. split; [exact (proj1 kst_ok)|]. split; [exact (proj1 (proj2 kst_ok))|]. split; [reflexivity|].
  split; [exact (proj1 (proj2 (proj2 (proj2 (proj2 (proj2 (proj2 kst_ok)))))) w221 RegNone)|]. split; [reflexivity|].
  split; [repeat constructor|]. cbn. apply perm_skip, perm_swap.
Qed.
