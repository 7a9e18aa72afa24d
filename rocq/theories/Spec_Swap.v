(** * Specification: exchanging the two classes of a data set with targets 0 and 1 *)
From Coq Require Import List Reals.
Import ListNotations.
Local Open Scope R_scope.

(** The targets with the names 0 and 1 of the classes exchanged; also the probabilities of the other class. *)
Definition exchanged (y : list R) : list R := map (fun t => 1 - t) y.
(** The parameters of the opposite affine function. *)
Definition opposite (p : list R) : list R := map Ropp p.
