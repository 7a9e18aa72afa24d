(** * Model of [src/learning/nnet/mod.rs] and [src/learning/nnet/net_layer.rs]

    Matrices are lists of rows; where the Rust code works on the row-major buffer the model
    flattens ([mdata]) and rebuilds ([mat_new]).  A [MatrixSlice] made from a raw pointer is
    [wslice]: it reads the weights from an offset, and reading outside the vector (undefined
    behaviour in Rust) is [Panic].  Draws of default parameters are an argument ([rng]). *)
From Coq Require Import List Arith Bool.
From Verif Require Import Base Num NumFn Linalg Model_Cost Model_Toolkit Model_Optim Model_Regression.
Import ListNotations.
Local Open Scope num_scope.

Section NNet.
  Context {F : Type} {N : Num F} {NF : NumFn F}.

  (** [Matrix::data] and [Matrix::into_vec] of [rulinalg]: the row-major buffer. *)
  Definition mdata (m : matrix F) : list F := concat (mrows m).

  (** Rows of a row-major buffer ([rulinalg]). *)
  Fixpoint chunk (rows cols : nat) (data : list F) : list (list F) :=
    match rows with
    | O => []
    | S rows' => firstn cols data :: chunk rows' cols (skipn cols data)
    end.

  (** [Matrix::new] of [rulinalg], with its size assertion. *)
  Definition mat_new (rows cols : nat) (data : list F) : res (matrix F) :=
    rassert (length data =? rows * cols)%nat (Ok (Mat (chunk rows cols data) cols)).

  (** [MatrixSlice::from_raw_parts(weights.as_ptr().offset(start), rows, cols, cols)] (mod.rs lines 319, 348, 415). *)
  Definition wslice (weights : list F) (start rows cols : nat) : res (matrix F) :=
    rassert (start + rows * cols <=? length weights)%nat
      (Ok (Mat (chunk rows cols (skipn start weights)) cols)).

  (** [Matrix * Matrix] with the size assertion of [rulinalg]. *)
  Definition rmat_mul (a b : matrix F) : res (matrix F) :=
    rassert (mcols a =? nrows b)%nat (Ok (mat_mul a b)).

  (** net_layer.rs lines 16-37: the trait [NetLayer].  [forward] takes input and parameters;
      [back_input] and [back_params] take out_grad, input, output and parameters. *)
  Record NetLayer := {
    nl_forward : matrix F -> matrix F -> res (matrix F);
    nl_back_input : matrix F -> matrix F -> matrix F -> matrix F -> res (matrix F);
    nl_back_params : matrix F -> matrix F -> matrix F -> matrix F -> res (matrix F);
    nl_default_params : (nat -> F) -> list F;
    nl_param_shape : nat * nat }.

  (** net_layer.rs lines 33-36. *)
  Definition num_params (l : NetLayer) : nat := fst (nl_param_shape l) * snd (nl_param_shape l).

  (** net_layer.rs lines 86-92: the loop from [i], [n] rounds left; the result is the buffer and
      [del].  [i % 0] and out-of-range accesses panic. *)
  Fixpoint rfc_loop (cols n i : nat) (v : list F) (del : nat) : res (list F * nat) :=
    match n with
    | O => Ok (v, del)
    | S n' =>
        rassert (negb (cols =? 0)%nat)
          (if (i mod cols =? 0)%nat then rfc_loop cols n' (S i) v (S del)
           else if (0 <? del)%nat then
             let? x := ridx v i in
             rassert (del <=? i)%nat
               (match upd v (i - del) x with
                | Some v' => rfc_loop cols n' (S i) v' del
                | None => Panic
                end)
           else rfc_loop cols n' (S i) v del)
    end.

  (** net_layer.rs lines 75-98.  [cols - 1] panics on underflow. *)
  Definition remove_first_col (mat : matrix F) : res (matrix F) :=
    let data := mdata mat in
    let len := length data in
    let? (v, del) := rfc_loop (mcols mat) len 0 data 0 in
    let data := if (0 <? del)%nat then firstn (len - del) v else v in
    rassert (1 <=? mcols mat)%nat (mat_new (nrows mat) (mcols mat - 1) data).

  (** net_layer.rs lines 46-53. *)
  Record Linear := { ln_input_size : nat; ln_output_size : nat; ln_has_bias : bool }.
  (** net_layer.rs lines 57-63. *)
  Definition linear_new (input_size output_size : nat) : Linear :=
    {| ln_input_size := input_size + 1; ln_output_size := output_size; ln_has_bias := true |}.
  (** net_layer.rs lines 66-72. *)
  Definition linear_without_bias (input_size output_size : nat) : Linear :=
    {| ln_input_size := input_size; ln_output_size := output_size; ln_has_bias := false |}.

  (** net_layer.rs lines 105-119. *)
  Definition linear_forward (self : Linear) (input params : matrix F) : res (matrix F) :=
    if ln_has_bias self then
      if negb (mcols input + 1 =? nrows params)%nat then Err InvalidData
      else rmat_mul (with_ones input) params
    else
      if negb (mcols input =? nrows params)%nat then Err InvalidData
      else rmat_mul input params.

  (** net_layer.rs lines 121-129; the [debug_assert] repeats the assertion of the product. *)
  Definition linear_back_input (self : Linear) (out_grad input output params : matrix F) : res (matrix F) :=
    let? gradient := rmat_mul out_grad (transpose params) in
    if ln_has_bias self then remove_first_col gradient else Ok gradient.

  (** net_layer.rs lines 131-138. *)
  Definition linear_back_params (self : Linear) (out_grad input output params : matrix F) : res (matrix F) :=
    if ln_has_bias self then rmat_mul (transpose (with_ones input)) out_grad
    else rmat_mul (transpose input) out_grad.

  (** net_layer.rs line 144: the standard deviation of the starting weights. *)
  Definition linear_default_sd (self : Linear) : F := nsqrt (nofnat 2 / nofnat (ln_input_size self + ln_output_size self)).
  (** net_layer.rs lines 143-149: [draw 0], [draw 1], ... are the draws of the standard normal distribution that [Normal::sample]
      (crate [rand]) multiplies by the standard deviation and adds to the mean. *)
  Definition linear_default_params (self : Linear) (draw : nat -> F) : list F :=
    map (fun k => nzero + linear_default_sd self * draw k) (seq 0 (ln_input_size self * ln_output_size self)).

  (** net_layer.rs lines 100-154. *)
  Definition linear_layer (self : Linear) : NetLayer :=
    {| nl_forward := linear_forward self;
       nl_back_input := linear_back_input self;
       nl_back_params := linear_back_params self;
       nl_default_params := linear_default_params self;
       nl_param_shape := (ln_input_size self, ln_output_size self) |}.

  (** net_layer.rs lines 158-164. *)
  Definition activ_forward (a : Activ F) (input params : matrix F) : res (matrix F) :=
    mat_new (nrows input) (mcols input) (map (af a) (mdata input)).
  (** net_layer.rs lines 166-172. *)
  Definition activ_back_input (a : Activ F) (out_grad input output params : matrix F) : res (matrix F) :=
    mat_new (nrows output) (mcols output) (map2 (fun y g => af_grad_out a y * g) (mdata output) (mdata out_grad)).
  (** net_layer.rs lines 174-184 and 156-185. *)
  Definition activ_layer (a : Activ F) : NetLayer :=
    {| nl_forward := activ_forward a;
       nl_back_input := activ_back_input a;
       nl_back_params := fun _ _ _ _ => mat_new 0 0 [];
       nl_default_params := fun _ => [];
       nl_param_shape := (0, 0)%nat |}.

  (** mod.rs lines 452-506: the trait [Criterion]. *)
  Record Criterion := {
    cr_cost : matrix F -> matrix F -> res F;
    cr_cost_grad : matrix F -> matrix F -> res (matrix F);
    cr_regularization : Regularization F }.
  (** mod.rs lines 478-483. *)
  Definition is_regularized (c : Criterion) : bool :=
    match cr_regularization c with RegNone => false | _ => true end.
  (** mod.rs lines 513-547. *)
  Definition BCECriterion (r : Regularization F) : Criterion :=
    {| cr_cost := ce_cost; cr_cost_grad := ce_grad; cr_regularization := r |}.
  (** mod.rs lines 553-588. *)
  Definition MSECriterion (r : Regularization F) : Criterion :=
    {| cr_cost := mse_cost; cr_cost_grad := mse_grad; cr_regularization := r |}.

  (** mod.rs lines 248-252. *)
  Record BaseNeuralNet := {
    nn_layers : list NetLayer;
    nn_weights : list F;
    nn_criterion : Criterion }.

  (** mod.rs lines 266-272. *)
  Definition net_new (criterion : Criterion) : BaseNeuralNet :=
    {| nn_layers := []; nn_weights := []; nn_criterion := criterion |}.

  (** mod.rs lines 290-294; [rng i] are the draws made for the layer at position [i]. *)
  Definition net_add (rng : nat -> nat -> F) (self : BaseNeuralNet) (layer : NetLayer) : BaseNeuralNet :=
    {| nn_layers := nn_layers self ++ [layer];
       nn_weights := nn_weights self ++ nl_default_params layer (rng (length (nn_layers self)));
       nn_criterion := nn_criterion self |}.

  (** mod.rs lines 297-304. *)
  Definition net_add_layers (rng : nat -> nat -> F) (self : BaseNeuralNet) (layers : list NetLayer) : BaseNeuralNet :=
    fold_left (net_add rng) layers self.

  (** mod.rs lines 282-285: the loop over [windows(2)]. *)
  Fixpoint mlp_layers (layer_sizes : list nat) (activ_fn : Activ F) : list NetLayer :=
    match layer_sizes with
    | a :: (b :: _) as rest => linear_layer (linear_new a b) :: activ_layer activ_fn :: mlp_layers rest activ_fn
    | _ => []
    end.

  (** mod.rs lines 275-287; [layer_sizes.len() - 1] underflows on an empty slice. *)
  Definition net_mlp (rng : nat -> nat -> F) (layer_sizes : list nat) (criterion : Criterion) (activ_fn : Activ F) : res BaseNeuralNet :=
    rassert (1 <=? length layer_sizes)%nat
      (Ok (net_add_layers rng (net_new criterion) (mlp_layers layer_sizes activ_fn))).

  (** mod.rs lines 113-118 and 255-261. *)
  Definition net_default (rng : nat -> nat -> F) (layer_sizes : list nat) : res BaseNeuralNet :=
    net_mlp rng layer_sizes (BCECriterion RegNone) Sigmoid.

  (** mod.rs lines 307-324. *)
  Definition get_layer_weights (self : BaseNeuralNet) (weights : list F) (idx : nat) : res (matrix F) :=
    let start := list_sum (map num_params (firstn idx (nn_layers self))) in
    let? l := ridx (nn_layers self) idx in
    let shape := nl_param_shape l in
    wslice weights start (fst shape) (snd shape).

  (** mod.rs lines 239-241. *)
  Definition get_net_weights (self : BaseNeuralNet) (idx : nat) : res (matrix F) :=
    get_layer_weights self (nn_weights self) idx.

  (** mod.rs lines 409-428: the loop over the layers after the first. *)
  Fixpoint forward_rest (weights : list F) (layers : list NetLayer) (index : nat) (outputs : matrix F) : res (matrix F) :=
    match layers with
    | [] => Ok outputs
    | layer :: layers' =>
        let shape := nl_param_shape layer in
        let? slice := wslice weights index (fst shape) (snd shape) in
        match nl_forward layer outputs slice with
        | Ok act => forward_rest weights layers' (index + num_params layer) act
        | Err _ => Err InvalidParameters
        | Panic => Panic
        end
    end.

  (** mod.rs lines 396-430. *)
  Definition forward_prop (self : BaseNeuralNet) (inputs : matrix F) : res (matrix F) :=
    match nn_layers self with
    | [] => Ok inputs
    | layer0 :: rest =>
        let shape := nl_param_shape layer0 in
        let? slice := wslice (nn_weights self) 0 (fst shape) (snd shape) in
        let? outputs := nl_forward layer0 inputs slice in
        forward_rest (nn_weights self) rest (num_params layer0) outputs
    end.

  (** mod.rs lines 84-86. *)
  Definition net_predict (self : BaseNeuralNet) (inputs : matrix F) : res (matrix F) := forward_prop self inputs.

  (** [Result::unwrap] (mod.rs lines 355 and 357). *)
  Definition unwrap {A} (r : res A) : res A := match r with Ok a => Ok a | _ => Panic end.

  (** mod.rs lines 337-366: what the forward loop of [compute_grad] keeps for a layer: the layer, its input
      ([activations[i-1]] or [inputs]), its output [activations[i]] and [params[i]]. *)
  Definition trace := (NetLayer * matrix F * matrix F * matrix F)%type.

  (** mod.rs lines 344-366. *)
  Fixpoint forward_pass (weights : list F) (layers : list NetLayer) (index : nat) (input : matrix F) : res (list trace * nat) :=
    match layers with
    | [] => Ok ([], index)
    | layer :: layers' =>
        let shape := nl_param_shape layer in
        let? slice := wslice weights index (fst shape) (snd shape) in
        let? output := unwrap (nl_forward layer input slice) in
        let? (ts, index') := forward_pass weights layers' (index + num_params layer) output in
        Ok ((layer, input, output, slice) :: ts, index')
    end.

  (** [gradients[index..index+len].copy_from_slice(data)]: panics out of range or on different
      lengths.  A cell of [gradients] is [None] until it is written (the buffer is created
      uninitialised, mod.rs lines 332-335). *)
  Definition write_block (gradients : list (option F)) (index len : nat) (data : list F) : res (list (option F)) :=
    rassert (index + len <=? length gradients)%nat
      (rassert (length data =? len)%nat
        (Ok (firstn index gradients ++ map Some data ++ skipn (index + len) gradients))).

  (** mod.rs lines 374-384, over the layers in reverse order. *)
  Fixpoint backward_pass (ts : list trace) (index : nat) (gradients : list (option F)) (out_grad : matrix F)
      : res (nat * list (option F) * matrix F) :=
    match ts with
    | [] => Ok (index, gradients, out_grad)
    | (layer, activation, result, params) :: ts' =>
        rassert (num_params layer <=? index)%nat
          (let index := (index - num_params layer)%nat in
           let? gp := nl_back_params layer out_grad activation result params in
           let? gradients' := write_block gradients index (num_params layer) (mdata gp) in
           let? out_grad' := nl_back_input layer out_grad activation result params in
           backward_pass ts' index gradients' out_grad')
    end.

  (** Reading a cell of [gradients] (mod.rs lines 386-392); an unwritten cell is an uninitialised read. *)
  Definition written (c : option F) : res F := match c with Some x => Ok x | None => Panic end.

  (** [MatrixSlice::from_raw_parts(weights.as_ptr(), weights.len(), 1, 1)] (mod.rs lines 388-390). *)
  Definition as_column (weights : list F) : matrix F := Mat (map (fun w => [w]) weights) 1.

  (** mod.rs lines 327-393. *)
  Definition net_compute_grad (self : BaseNeuralNet) (weights : list F) (inputs targets : matrix F) : res (F * list F) :=
    let gradients := repeat None (length weights) in
    let? (ts, index) := forward_pass weights (nn_layers self) 0 inputs in
    match rev ts with
    | [] => Panic
    | (_, _, output, _) :: _ =>
        let? out_grad := cr_cost_grad (nn_criterion self) output targets in
        let? (_, gradients, _) := backward_pass (rev ts) index gradients out_grad in
        let? gradients := rmap written gradients in
        let? cost := cr_cost (nn_criterion self) output targets in
        if is_regularized (nn_criterion self) then
          let all_params := as_column weights in
          let rg := mdata (reg_grad (cr_regularization (nn_criterion self)) all_params) in
          rassert (length gradients =? length rg)%nat
            (Ok (cost + reg_cost (cr_regularization (nn_criterion self)) all_params,
                 map2 (fun x y => x + y) gradients rg))
        else Ok (cost, gradients)
    end.

  (** mod.rs lines 89-93: assignment to [self.weights]. *)
  Definition set_weights (self : BaseNeuralNet) (w : list F) : BaseNeuralNet :=
    {| nn_layers := nn_layers self; nn_weights := w; nn_criterion := nn_criterion self |}.

  (** mod.rs lines 68-74 and 89-93.  [optimize] is the chosen [OptimAlgorithm]: it is given
      [compute_grad], the stored weights as its start, and the data. *)
  Definition net_train
      (optimize : (list F -> matrix F -> matrix F -> res (F * list F)) -> list F -> matrix F -> matrix F -> Rnd (list F))
      (self : BaseNeuralNet) (inputs targets : matrix F) : Rnd BaseNeuralNet :=
    let! optimal_w := optimize (net_compute_grad self) (nn_weights self) inputs targets in
    RRet (set_weights self optimal_w).

  (** [GradientDesc] (which draws nothing) used as [optimize]; grad_desc.rs lines 67-97. *)
  Definition gd_as_optimizer (self : GradientDesc F) (cg : list F -> matrix F -> matrix F -> res (F * list F)) start X T : Rnd (list F) :=
    rnd_res (gd_optimize self (fun w => cg w X T) start).
End NNet.
Arguments NetLayer : clear implicits. Arguments Criterion : clear implicits. Arguments BaseNeuralNet : clear implicits.
