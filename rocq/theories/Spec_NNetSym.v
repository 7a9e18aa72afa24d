(** Relabelling the units of a network (C148, C149). *)
From Coq Require Import List Arith Bool Permutation Reals.
From Verif Require Import Base Num NumFn Linalg Model_Rand Model_Toolkit Model_Optim Model_CG Model_NNet Spec_NNet.
Import ListNotations.

Section Sym.
  Context {F : Type}.
  (** The units of each linear layer get the order given by the next list of [qs]; layers without a list keep their order.
      Position [j] of an order holds the old number of the unit that is now number [j]. *)
  Definition next_order (o : nat) (qs : list (list nat)) : list nat := hd (seq 0 o) qs.
  (** Each order is a rearrangement of the units of its layer. *)
  Fixpoint orders_fit (ks : list (LayerKind F)) (qs : list (list nat)) : Prop :=
    match ks with
    | [] => True
    | KLinear _ o _ :: ks' => Permutation (next_order o qs) (seq 0 o) /\ orders_fit ks' (tl qs)
    | KActiv _ :: ks' => orders_fit ks' qs
    end.
  (** Where the weights of a linear layer go: row [r] of its matrix holds the bias ([r = 0], if there is one) or the weights from
      one unit of the layer below, whose units are now in the order [p]. *)
  Definition layer_order (o : nat) (bias : bool) (p q : list nat) : list nat :=
    flat_map (fun r => map (fun j => r * o + j) q) ((if bias then [0] else []) ++ map (Nat.add (bias_rows bias)) p).
  (** The order of all weights, for inputs in the order [p]. *)
  Fixpoint weight_order (ks : list (LayerKind F)) (p : list nat) (qs : list (list nat)) : list nat :=
    match ks with
    | [] => []
    | KLinear i o b :: ks' =>
        layer_order o b p (next_order o qs) ++ map (Nat.add ((bias_rows b + i) * o)) (weight_order ks' (next_order o qs) (tl qs))
    | KActiv _ :: ks' => weight_order ks' p qs
    end.
  (** The order of the outputs. *)
  Fixpoint output_order (ks : list (LayerKind F)) (p : list nat) (qs : list (list nat)) : list nat :=
    match ks with
    | [] => p
    | KLinear _ o _ :: ks' => output_order ks' (next_order o qs) (tl qs)
    | KActiv _ :: ks' => output_order ks' p qs
    end.
End Sym.

(** A criterion whose gradient is meaningful for all weights: squared error, or cross entropy after a final sigmoid. *)
Definition proper_criterion (net : BaseNeuralNet R) (ks : list (LayerKind R)) (r : Regularization R) : Prop :=
  nn_criterion net = MSECriterion r \/ (nn_criterion net = BCECriterion r /\ exists ks0, ks = ks0 ++ [KActiv Sigmoid]).
(** The optimisers of the crate. *)
Inductive crate_optimiser : ((list R -> matrix R -> matrix R -> res (R * list R)) -> list R -> matrix R -> matrix R -> Rnd (list R)) -> Prop :=
| by_gd self : crate_optimiser (gd_as_optimizer self)
| by_cg self : crate_optimiser (fun cg start X T => rnd_res (cg_optimize self (fun w => cg w X T) start))
| by_sgd self : crate_optimiser (sgd_optimize self)
| by_adagrad self : crate_optimiser (ada_optimize self)
| by_rmsprop self : crate_optimiser (rms_optimize self).
