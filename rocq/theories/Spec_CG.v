(** Specification for the conjugate gradient optimiser. *)
From Coq Require Import List Arith Reals.
From Verif Require Import Base Num NumX Linalg Model_CG.
Import ListNotations.
Local Open Scope R_scope.

(** A cost function of [n] parameters that returns a gradient of [n] entries. *)
Definition total_cost {F} (n : nat) (cost : list F -> res (F * list F)) : Prop :=
  forall x, length x = n -> exists f df, cost x = Ok (f, df) /\ length df = n.
(** All entries are numbers. *)
Definition all_fin (v : list X) : Prop := exists u, v = map Fin u.
(** At numbers the cost is not NaN (it may be infinite) and the gradient consists of numbers. *)
Definition well_behaved (n : nat) (cost : list X -> res (X * list X)) : Prop :=
  forall x, length x = n -> all_fin x -> exists f df, cost x = Ok (f, df) /\ f <> NaN /\ length df = n /\ all_fin df.
(** Parameters as in the default configuration: non-negative numbers, [int] at most one. *)
Definition sane (self : ConjugateGD X) : Prop :=
  (exists r, cg_rho self = Fin r /\ 0 <= r) /\ (exists r, cg_sig self = Fin r) /\ (exists r, cg_int self = Fin r /\ 0 <= r <= 1) /\
  (exists r, cg_ext self = Fin r /\ 0 <= r) /\ (exists r, cg_ratio self = Fin r /\ 0 <= r).
