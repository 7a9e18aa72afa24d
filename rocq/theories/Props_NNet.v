(** * C47-C50, C83, C84: neural networks ([src/learning/nnet]) *)
From Coq Require Import List Arith Lia Bool Reals Lra.
From Verif Require Import Base Num NumFn Linalg Spec_Calc Model_Toolkit Model_Optim Model_NNet Spec_NNet
  Proof_NNet Proof_NNet2 Proof_NNet3 Proof_NNet4 Proof_NNet5 Proof_NNetEx.
Import ListNotations.

(** C47: for every arithmetic and every layer type with honest defaults. *)
Theorem C47_layout : forall (F : Type) (N : Num F) (NF : NumFn F) (net : BaseNeuralNet F), reachable net -> laid_out net.
Proof. exact (fun F N NF net H => laid_out_len net (reachable_len net H)). Qed.
Print Assumptions C47_layout.
(** The crate's own layers and optimisers qualify. *)
Theorem C47_honest_layers : forall (F : Type) (N : Num F) (k : LayerKind F), honest (to_layer k).
Proof. exact @to_layer_honest. Qed.
Print Assumptions C47_honest_layers.
Theorem C47_optimisers_keep_length : forall (F : Type) (N : Num F),
  (forall self, keeps_length (gd_as_optimizer self)) /\ (forall self, keeps_length (sgd_optimize self)) /\
  (forall self, keeps_length (ada_optimize self)) /\ (forall self, keeps_length (rms_optimize self)).
Proof. exact (fun F N => conj gd_keeps (conj sgd_keeps (conj ada_keeps rms_keeps))). Qed.
Print Assumptions C47_optimisers_keep_length.
Theorem C47_mlp : forall (F : Type) (N : Num F) (NF : NumFn F) rng x s (c : Criterion F) a,
  exists net, net_mlp rng (x :: s) c a = Ok net /\
    nn_layers net = map to_layer (mlp_kinds (x :: s) a) /\ nn_criterion net = c /\
    length (nn_weights net) = total_params (mlp_kinds (x :: s) a).
Proof. exact @mlp_ok. Qed.
Print Assumptions C47_mlp.
Theorem C47_mlp_widths : forall (F : Type) (a : Activ F) s x, widths (mlp_kinds (x :: s) a) x = Some (last (x :: s) 0).
Proof. exact @mlp_widths. Qed.
Print Assumptions C47_mlp_widths.
(** The documentation's example: with sizes [3; 3; 3; 3] the layer with index 2 has a 4 x 3 block. *)
Example C47_ex : total_params (mlp_kinds [3; 3; 3; 3] (Sigmoid (F := R))) = 36 /\
  exists net, net_mlp (fun _ _ => 0%R) [3; 3; 3; 3] (MSECriterion RegNone) Sigmoid = Ok net /\
    exists m, get_net_weights net 2 = Ok m /\ nrows m = 4 /\ mcols m = 3.
Proof. split; [reflexivity|]. eexists. split; [reflexivity|]. eexists. split; [reflexivity|]. split; reflexivity. Qed.

(** C48: what prediction returns, for every arithmetic and every layer type. *)
Theorem C48_no_layer : forall (F : Type) (N : Num F) (net : BaseNeuralNet F) X, nn_layers net = [] -> net_predict net X = Ok X.
Proof. exact (fun F N net X => predict_none net X). Qed.
Print Assumptions C48_no_layer.
Theorem C48_first_layer : forall (F : Type) (N : Num F) (net : BaseNeuralNet F) l X,
  nn_layers net = [l] -> length (nn_weights net) = num_params l ->
  net_predict net X = let? P := get_net_weights net 0 in nl_forward l X P.
Proof. exact (fun F N net l X => predict_one net l X). Qed.
Print Assumptions C48_first_layer.
Theorem C48_next_layer : forall (F : Type) (N : Num F) (net : BaseNeuralNet F) l0 ls l X,
  nn_layers net = l0 :: ls ++ [l] -> length (nn_weights net) = list_sum (map num_params (nn_layers net)) ->
  let n := list_sum (map num_params (l0 :: ls)) in
  net_predict net X =
  match net_predict {| nn_layers := l0 :: ls; nn_weights := firstn n (nn_weights net); nn_criterion := nn_criterion net |} X with
  | Ok Y => let? P := get_net_weights net (S (length ls)) in
            match nl_forward l Y P with Ok Z => Ok Z | Err _ => Err InvalidParameters | Panic => Panic end
  | Err k => Err k
  | Panic => Panic
  end.
Proof. exact (fun F N net l0 ls l X => predict_snoc net l0 ls l X). Qed.
Print Assumptions C48_next_layer.
(** The crate's own layers, over the reals: row by row. *)
Theorem C48_value : forall (net : BaseNeuralNet R) ks X c,
  nn_layers net = map to_layer ks -> length (nn_weights net) = total_params ks -> mwf X -> widths ks (mcols X) = Some c ->
  net_predict net X = Ok (Mat (map (net_row ks (nn_weights net)) (mrows X)) c).
Proof. exact predict_rows. Qed.
Print Assumptions C48_value.
(** Errors exactly on a width mismatch, never a panic, for every arithmetic. *)
Theorem C48_errors : forall (F : Type) (N : Num F) (net : BaseNeuralNet F) k ks X,
  nn_layers net = map to_layer (k :: ks) -> length (nn_weights net) = total_params (k :: ks) -> mwf X ->
  (widths (k :: ks) (mcols X) = None ->
     net_predict net X = Err (match out_width k (mcols X) with None => InvalidData | Some _ => InvalidParameters end)) /\
  (forall c, widths (k :: ks) (mcols X) = Some c ->
     exists Y, net_predict net X = Ok Y /\ mwf Y /\ nrows Y = nrows X /\ mcols Y = c).
Proof.
  exact (fun F N net k ks X HL Hlen W => conj (predict_misfit net k ks X HL Hlen W)
    (fun c HW => ex_intro _ _ (predict_fits net (k :: ks) X c HL Hlen W HW))).
Qed.
Print Assumptions C48_errors.
Example C48_ex : net_predict net2 (Mat [[4; 5]%R] 2) = Ok (Mat [[24%R]] 1) /\ widths ks2 2 = Some 1 /\ widths ks2 3 = None.
Proof. split; [exact net2_predict|]. split; reflexivity. Qed.

(** C49 holds for a single row (the way the stochastic optimisers call it) without regularisation. *)
Theorem C49_one_row : forall (net : BaseNeuralNet R) ks w X T c,
  nn_layers net = map to_layer ks -> ks <> [] -> Forall smooth_kind ks -> length w = total_params ks ->
  mwf X -> widths ks (mcols X) = Some c -> nrows X = 1 -> mwf T -> nrows T = 1 -> mcols T = c ->
  nn_criterion net = MSECriterion RegNone \/ (nn_criterion net = BCECriterion RegNone /\ outputs_between net w X) ->
  exists cost g, net_compute_grad net w X T = Ok (cost, g) /\ data_cost net X T w = Ok cost /\
    length g = length w /\ forall q, q < length w -> has_partial_vec (data_cost net X T) w q (nth q g 0%R).
Proof. exact one_row_gradient. Qed.
Print Assumptions C49_one_row.
Theorem C49_default_one_row : forall rng x y s (net : BaseNeuralNet R) w X T,
  net_default rng (x :: y :: s) = Ok net -> length w = length (nn_weights net) ->
  mwf X -> nrows X = 1 -> mcols X = x -> mwf T -> nrows T = 1 -> mcols T = last (y :: s) 0 ->
  exists cost g, net_compute_grad net w X T = Ok (cost, g) /\ data_cost net X T w = Ok cost /\
    length g = length w /\ forall q, q < length w -> has_partial_vec (data_cost net X T) w q (nth q g 0%R).
Proof. exact default_one_row. Qed.
Print Assumptions C49_default_one_row.
(** It fails for every batch of at least two rows, wherever the derivative is not zero... *)
Theorem C49_refuted_batches : forall (net : BaseNeuralNet R) ks w X T c q d,
  nn_layers net = map to_layer ks -> ks <> [] -> Forall smooth_kind ks -> length w = total_params ks ->
  mwf X -> widths ks (mcols X) = Some c -> 2 <= nrows X -> mwf T -> nrows T = nrows X -> mcols T = c ->
  nn_criterion net = MSECriterion RegNone \/ (nn_criterion net = BCECriterion RegNone /\ outputs_between net w X) ->
  q < length w -> has_partial_vec (data_cost net X T) w q d -> d <> 0%R ->
  exists cost g, net_compute_grad net w X T = Ok (cost, g) /\ data_cost net X T w = Ok cost /\
    nth q g 0%R = (INR (nrows X) * d)%R /\ nth q g 0%R <> d.
Proof. exact batch_gradient_wrong. Qed.
Print Assumptions C49_refuted_batches.
(** ... and with [L2] regularisation. *)
Theorem C49_refuted_l2 : exists g c, net_compute_grad (net1 (RegL2 1%R)) [1%R] X1 X1 = Ok (c, g) /\ nth 0 g 0%R = 1%R /\
  has_partial_vec (fun v => let? (c, _) := net_compute_grad (net1 (RegL2 1%R)) v X1 X1 in Ok c) [1%R] 0 (1 / 2)%R.
Proof. exact l2_gradient_wrong. Qed.
Print Assumptions C49_refuted_l2.
Example C49_ex : nn_layers (net1 RegNone) = map to_layer ks1 /\ ks1 <> [] /\ Forall smooth_kind ks1 /\ length [1%R] = total_params ks1 /\
  mwf X2 /\ widths ks1 (mcols X2) = Some 1 /\ 2 <= nrows X2 /\ mwf T2 /\ nrows T2 = nrows X2 /\ mcols T2 = 1 /\
  has_partial_vec (data_cost (net1 RegNone) X2 T2) [1%R] 0 1%R.
Proof.
  repeat split; try reflexivity; try discriminate; try apply X2_wf; try exact ks1_smooth; try exact batch_example.
Qed.

(** C83: what [compute_grad] computes: the number of rows times the gradient of the mean cost, plus
    the regulariser's gradient; networks of any depth, any batch size. *)
Theorem C83_gradient : forall (net : BaseNeuralNet R) ks w X T c r,
  nn_layers net = map to_layer ks -> ks <> [] -> Forall smooth_kind ks -> length w = total_params ks ->
  mwf X -> widths ks (mcols X) = Some c -> 0 < nrows X -> mwf T -> nrows T = nrows X -> mcols T = c ->
  nn_criterion net = MSECriterion r \/ (nn_criterion net = BCECriterion r /\ outputs_between net w X) ->
  exists dc g, data_cost net X T w = Ok dc /\
    net_compute_grad net w X T = Ok ((dc + reg_cost r (as_column w))%R, g) /\
    length g = length w /\
    forall q, q < length w -> exists d, has_partial_vec (data_cost net X T) w q d /\
      nth q g 0%R = (INR (nrows X) * d + entry (reg_grad r (as_column w)) q 0)%R.
Proof. exact gradient_times_rows. Qed.
Print Assumptions C83_gradient.
Theorem C83_crate_activations : smooth_activ Sigmoid /\ smooth_activ Tanh /\ smooth_activ Exp /\ smooth_activ LinearAct.
Proof. exact (conj sigmoid_smooth (conj tanh_smooth (conj exp_smooth linear_smooth))). Qed.
Print Assumptions C83_crate_activations.
Example C83_ex : mwf X2 /\ mwf T2 /\ 0 < nrows X2 /\ Forall smooth_kind ks2 /\ widths ks1 (mcols X2) = Some 1.
Proof. split; [apply X2_wf|]. split; [apply X2_wf|]. split; [cbn; lia|]. split; [|reflexivity]. repeat constructor. apply linear_smooth. Qed.

(** C50, for every arithmetic. *)
Theorem C50_remove_first_col : forall (F : Type) (m : matrix F), mwf m -> 1 <= mcols m ->
  remove_first_col m = Ok (Mat (map (@tl F) (mrows m)) (mcols m - 1)).
Proof. exact @remove_first_col_ok. Qed.
Print Assumptions C50_remove_first_col.
Example C50_ex : remove_first_col (Mat [[1; 2; 3]; [4; 5; 6]] 3) = Ok (Mat [[2; 3]; [5; 6]] 2).
Proof. reflexivity. Qed.

(** C84: training reports shape errors by panicking. *)
Theorem C84_gradient_panics : forall (net : BaseNeuralNet R) ks w X T r,
  nn_layers net = map to_layer ks -> length w = total_params ks -> mwf X ->
  nn_criterion net = MSECriterion r \/ nn_criterion net = BCECriterion r ->
  ks = [] \/ widths ks (mcols X) = None \/ (exists c, widths ks (mcols X) = Some c /\ (nrows T <> nrows X \/ mcols T <> c)) ->
  net_compute_grad net w X T = Panic.
Proof. exact compute_grad_panics. Qed.
Print Assumptions C84_gradient_panics.
Theorem C84_gd_train : forall (net : BaseNeuralNet R) ks X T r,
  nn_layers net = map to_layer ks -> length (nn_weights net) = total_params ks -> mwf X ->
  nn_criterion net = MSECriterion r \/ nn_criterion net = BCECriterion r ->
  forall self, 0 < gd_iters self -> cannot_train ks X T \/ nrows T <> nrows X ->
  net_train (gd_as_optimizer self) net X T = RPanic.
Proof. exact gd_train_panics. Qed.
Print Assumptions C84_gd_train.
Theorem C84_stochastic_train : forall (net : BaseNeuralNet R) ks X T r,
  nn_layers net = map to_layer ks -> length (nn_weights net) = total_params ks -> mwf X ->
  nn_criterion net = MSECriterion r \/ nn_criterion net = BCECriterion r ->
  cannot_train ks X T -> 0 < nrows X ->
  (forall self, 0 < sgd_iters self -> forall net', ~ outcome (net_train (sgd_optimize self) net X T) (Some net')) /\
  (forall self, 0 < ada_iters self -> forall net', ~ outcome (net_train (ada_optimize self) net X T) (Some net')) /\
  (forall self, 0 < rms_iters self -> forall net', ~ outcome (net_train (rms_optimize self) net X T) (Some net')).
Proof. exact sgd_train_panics. Qed.
Print Assumptions C84_stochastic_train.
Example C84_ex : nn_layers net2 = map to_layer ks2 /\ length (nn_weights net2) = total_params ks2 /\
  cannot_train ks2 (Mat [[1%R]] 1) (Mat [[1%R]] 1).
Proof. split; [reflexivity|]. split; [reflexivity|]. right. left. reflexivity. Qed.
