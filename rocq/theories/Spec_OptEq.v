(** What it means that two objectives are the same up to a change of the parameters (C131). *)
From Coq Require Import List Arith Permutation.
From Verif Require Import Base Num Linalg Model_Optim.
Import ListNotations.

(** [cg'] is [cg] after the change [T] of the parameters: same costs, gradients changed alike. *)
Definition carried {F} (n : nat) (T : list F -> list F) (cg cg' : list F -> res (F * list F)) : Prop :=
  forall w, length w = n -> exists c g, cg w = Ok (c, g) /\ length g = n /\ cg' (T w) = Ok (c, T g).
(** The objective at row [i] of a training set: what the stochastic optimisers evaluate. *)
Definition at_row {F} {N : Num F} (cg : list F -> matrix F -> matrix F -> res (F * list F)) (inputs targets : matrix F) (i : nat) (w : list F) : res (F * list F) :=
  let? xi := one_row inputs i in let? ti := one_row targets i in cg w xi ti.
(** The same for all rows; where one fails, so does the other. *)
Definition carried_rows {F} {N : Num F} (n : nat) (T : list F -> list F) cg cg' (inputs inputs' targets targets' : matrix F) : Prop :=
  nrows inputs' = nrows inputs /\
  forall i w, length w = n -> at_row cg' inputs' targets' i (T w) = (let? (c, g) := at_row cg inputs targets i w in Ok (c, T g)) /\
    forall c g, at_row cg inputs targets i w = Ok (c, g) -> length g = n.
(** Another order of the parameters. *)
Definition arrange {F} {N : Num F} (pi : list nat) (v : list F) : list F := map (fun k => nth k v nzero) pi.
