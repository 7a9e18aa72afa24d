(** * Specification: the cost a stochastic optimiser incurs while it trains *)
From Coq Require Import List Arith Reals.
From Verif Require Import Base Num Linalg Spec_Optim.
Import ListNotations.
Local Open Scope R_scope.

(** On the [i]-th row alone the model has the cost [f i] and the gradient [G i]. *)
Definition row_costs (n : nat) (cg : list R -> matrix R -> matrix R -> res (R * list R)) (inputs targets : matrix R)
    (f : nat -> list R -> R) (G : nat -> list R -> list R) : Prop :=
  forall i x t w, nth_error (mrows inputs) i = Some x -> nth_error (mrows targets) i = Some t -> length w = n ->
    cg w (Mat [x] (mcols inputs)) (Mat [t] (mcols targets)) = Ok (f i w, G i w) /\ length (G i w) = n.
(** The rows are visited in the given order; [ws] lists the parameters at each visit, [v] is reached at the end. *)
Inductive visits (next : list R -> list R -> list R -> list R -> list R -> Prop) (G : nat -> list R -> list R) :
    list nat -> list R -> list R -> list (list R) -> list R -> Prop :=
| visits_done w a : visits next G [] w a [] w
| visits_row i order w a w1 a1 ws v : next w a (G i w) w1 a1 -> visits next G order w1 a1 ws v -> visits next G (i :: order) w a (w :: ws) v.
(** The costs met on the way, added up. *)
Definition incurred (f : nat -> list R -> R) (order : list nat) (ws : list (list R)) : R :=
  fold_right Rplus 0 (map2 f order ws).
(** The total cost of one fixed parameter vector on the first [m] rows. *)
Definition fixed_cost (f : nat -> list R -> R) (m : nat) (u : list R) : R := sumR m (fun i => f i u).
(** Every entry of every gradient met on the way is at most [B] in absolute value. *)
Definition gradients_within (n : nat) (G : nat -> list R -> list R) (B : R) (order : list nat) (ws : list (list R)) : Prop :=
  forall i w, In (i, w) (combine order ws) -> forall j, (j < n)%nat -> Rabs (at_ (G i w) j) <= B.
(** All parameters met on the way are within [D] of [u]. *)
Definition stays_within (n : nat) (D : R) (u : list R) (ws : list (list R)) : Prop :=
  forall w, In w ws -> forall j, (j < n)%nat -> Rabs (at_ w j - at_ u j) <= D.
