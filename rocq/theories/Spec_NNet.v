(** * What neural networks must satisfy *)
From Coq Require Import List Arith Bool Reals.
From Verif Require Import Base Num NumFn Linalg Spec_Calc Model_Toolkit Model_NNet.
Import ListNotations.
Local Open Scope R_scope.

Section Layout.
  Context {F : Type} {N : Num F} {NF : NumFn F}.

  (** A layer whose default parameters are as many as its advertised shape holds. *)
  Definition honest (l : NetLayer F) : Prop := forall draw, length (nl_default_params l draw) = num_params l.

  (** An optimiser returning as many parameters as it was given. *)
  Definition keeps_length
      (opt : (list F -> matrix F -> matrix F -> res (F * list F)) -> list F -> matrix F -> matrix F -> Rnd (list F)) : Prop :=
    forall cg start inputs targets v, outcome (opt cg start inputs targets) (Some v) -> length v = length start.

  (** The networks a user can reach: constructors, builder calls and training in any order. *)
  Inductive reachable : BaseNeuralNet F -> Prop :=
  | reach_new c : reachable (net_new c)
  | reach_mlp rng sizes c a net : net_mlp rng sizes c a = Ok net -> reachable net
  | reach_default rng sizes net : net_default rng sizes = Ok net -> reachable net
  | reach_add rng net l : reachable net -> honest l -> reachable (net_add rng net l)
  | reach_add_layers rng net ls : reachable net -> Forall honest ls -> reachable (net_add_layers rng net ls)
  | reach_train opt net X T net' : reachable net -> keeps_length opt ->
      outcome (net_train opt net X T) (Some net') -> reachable net'.

  (** The weight vector is the concatenation, in order, of one block per layer. *)
  Definition laid_out (net : BaseNeuralNet F) : Prop :=
    length (nn_weights net) = list_sum (map num_params (nn_layers net)) /\
    (forall idx l, nth_error (nn_layers net) idx = Some l ->
       exists m, get_net_weights net idx = Ok m /\ mwf m /\
                 nrows m = fst (nl_param_shape l) /\ mcols m = snd (nl_param_shape l) /\
                 forall i j d, (i < nrows m)%nat -> (j < mcols m)%nat ->
                   nth j (nth i (mrows m) []) d =
                   nth (list_sum (map num_params (firstn idx (nn_layers net))) + i * mcols m + j) (nn_weights net) d) /\
    (forall idx, (length (nn_layers net) <= idx)%nat -> get_net_weights net idx = Panic) /\
    (exists ms, rmap (get_net_weights net) (seq 0 (length (nn_layers net))) = Ok ms /\
                concat (map (fun m => concat (mrows m)) ms) = nn_weights net).

  (** The layers the crate provides. *)
  Inductive LayerKind := KLinear (inputs outputs : nat) (bias : bool) | KActiv (a : Activ F).
  Definition to_layer (k : LayerKind) : NetLayer F :=
    match k with
    | KLinear i o true => linear_layer (linear_new i o)
    | KLinear i o false => linear_layer (linear_without_bias i o)
    | KActiv a => activ_layer a
    end.
  (** Number of parameters of a layer, and of a stack. *)
  Definition bias_rows (bias : bool) : nat := if bias then 1 else 0.
  Definition kparams (k : LayerKind) : nat :=
    match k with KLinear i o b => (bias_rows b + i) * o | KActiv _ => 0 end.
  Definition total_params (ks : list LayerKind) : nat := list_sum (map kparams ks).
  (** Width of the output for a given input width; [None] when the layer does not fit. *)
  Definition out_width (k : LayerKind) (w : nat) : option nat :=
    match k with KLinear i o _ => if (w =? i)%nat then Some o else None | KActiv _ => Some w end.
  Fixpoint widths (ks : list LayerKind) (w : nat) : option nat :=
    match ks with
    | [] => Some w
    | k :: ks' => match out_width k w with Some w' => widths ks' w' | None => None end
    end.
  (** The stack built by [mlp] for given layer sizes. *)
  Fixpoint mlp_kinds (sizes : list nat) (a : Activ F) : list LayerKind :=
    match sizes with
    | x :: (y :: _) as rest => KLinear x y true :: KActiv a :: mlp_kinds rest a
    | _ => []
    end.
End Layout.
Arguments LayerKind : clear implicits.

(** The function a stack of layers computes on one row, with the weights given as one vector. *)
Fixpoint net_row (ks : list (LayerKind R)) (w x : list R) : list R :=
  match ks with
  | [] => x
  | KLinear i o b :: ks' =>
      let y := map (fun j => (if b then nth j w 0 else 0) +
                             sumR i (fun k => nth k x 0 * nth ((bias_rows b + k) * o + j) w 0)) (seq 0 o) in
      net_row ks' (skipn ((bias_rows b + i) * o) w) y
  | KActiv a :: ks' => net_row ks' w (map (af a) x)
  end.

(** The cost of a network on a data set as a function of its weights, without regularisation. *)
Definition data_cost (net : BaseNeuralNet R) (X T : matrix R) (w : list R) : res R :=
  let? Y := net_predict (set_weights net w) X in cr_cost (nn_criterion net) Y T.

(** Activation functions whose gradient is the derivative. *)
Definition smooth_activ (a : Activ R) : Prop := forall x, derivable_pt_lim (af a) x (af_grad_out a (af a x)).
Definition smooth_kind (k : LayerKind R) : Prop := match k with KActiv a => smooth_activ a | KLinear _ _ _ => True end.

(** All predictions lie strictly between 0 and 1, where the cross entropy is differentiable. *)
Definition outputs_between (net : BaseNeuralNet R) (w : list R) (X : matrix R) : Prop :=
  forall Y, net_predict (set_weights net w) X = Ok Y -> forall i j, (i < nrows Y)%nat -> (j < mcols Y)%nat -> 0 < entry Y i j < 1.

(** A stack that cannot be trained on [X] and [T]: empty, not fitting, or of another output width. *)
Definition cannot_train (ks : list (LayerKind R)) (X T : matrix R) : Prop :=
  ks = [] \/ widths ks (mcols X) = None \/ (exists c, widths ks (mcols X) = Some c /\ mcols T <> c).
