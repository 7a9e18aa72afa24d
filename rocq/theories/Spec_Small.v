(** * How much answers can change *)
From Coq Require Import List Arith Reals.
From Verif Require Import Base Num NumFn Linalg Model_Toolkit Model_NNet Spec_NNet.
Import ListNotations.
Local Open Scope R_scope.

(** Straight-line distance between two rows with [n] entries. *)
Definition gap (n : nat) (a b : list R) : R := sqrt (sumR n (fun k => (nth k a 0 - nth k b 0) ^ 2)).
(** Row [i] of a matrix. *)
Definition mrow (X : matrix R) (i : nat) : list R := nth i (mrows X) [].
(** Length of the coefficient vector without the intercept. *)
Definition slope_len (d : nat) (p : list R) : R := sqrt (sumR d (fun k => nth (S k) p 0 ^ 2)).

(** The activation function changes its value by at most [c] times the change of its argument. *)
Definition gentle (a : Activ R) (c : R) : Prop := 0 <= c /\ forall s t, Rabs (af a s - af a t) <= c * Rabs (s - t).

(** Root of the sum of squares of the weights of a linear layer, without those of the bias; [w] starts with its weights. *)
Definition weight_len (i o : nat) (bias : bool) (w : list R) : R :=
  sqrt (sumR i (fun k => sumR o (fun j => nth ((bias_rows bias + k) * o + j) w 0 ^ 2))).

(** [L] is the product of the lengths of the weights of the linear layers and the constants of the activations. *)
Inductive stretch : list (LayerKind R) -> list R -> R -> Prop :=
| stretch_nil w : stretch [] w 1
| stretch_linear i o b ks w L : stretch ks (skipn ((bias_rows b + i) * o) w) L ->
    stretch (KLinear i o b :: ks) w (weight_len i o b w * L)
| stretch_activ a c ks w L : gentle a c -> stretch ks w L -> stretch (KActiv a :: ks) w (c * L).

(** No activation function of the stack does anything. *)
Definition all_linear (ks : list (LayerKind R)) : Prop := forall a, In (KActiv a) ks -> forall x, af a x = x.
