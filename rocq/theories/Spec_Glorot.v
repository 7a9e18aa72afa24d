(** Random draws with mean 0 and variance 1 (C183). *)
From Coq Require Import List Arith Bool Reals.
From Verif Require Import Base BaseLemmas Num NumFn Linalg Model_NNet.
Import ListNotations.
Local Open Scope R_scope.

(** [E] takes means of quantities that depend on a sequence of draws, of which the first [m] have mean 0 and variance 1 and
    are uncorrelated. *)
Definition standard_draws (m : nat) (E : ((nat -> R) -> R) -> R) : Prop :=
  (forall f g, (forall z, f z = g z) -> E f = E g) /\
  (forall f g a b, E (fun z => a * f z + b * g z) = a * E f + b * E g) /\
  E (fun _ => 1) = 1 /\
  (forall k, (k < m)%nat -> E (fun z => z k) = 0) /\
  (forall k l, (k < m)%nat -> (l < m)%nat -> E (fun z => z k * z l) = if (k =? l)%nat then 1 else 0).
(** The linear layer with [i] inputs and [o] outputs, as its two constructors make it. *)
Definition lin_l (i o : nat) (b : bool) : Linear := if b then linear_new i o else linear_without_bias i o.
