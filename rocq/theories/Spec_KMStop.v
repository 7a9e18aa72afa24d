(** When k-means training stops (for C98). *)
From Coq Require Import List Reals.
From Verif Require Import Base Linalg Spec_KMeans.
Import ListNotations.
Local Open Scope R_scope.

(** The objective at the start of each step of a run. *)
Fixpoint run_costs (M C : matrix R) (l : list (list nat * matrix R)) : list R :=
  match l with [] => [] | (a, C') :: l' => objective M C a :: run_costs M C' l' end.
(** No two successive values (the one before the first is [prev]) are closer than [tol]. *)
Fixpoint apart (tol prev : R) (js : list R) : Prop :=
  match js with [] => True | j :: js' => tol <= Rabs (prev - j) /\ apart tol j js' end.
(** The last two are, and none before. *)
Definition settles (tol prev : R) (js : list R) : Prop := exists js' j, js = js' ++ [j] /\ apart tol prev js' /\ Rabs (last js' prev - j) < tol.
