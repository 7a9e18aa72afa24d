(** * Labels used with the bundled data sets *)
From Coq Require Import List Arith Reals.
From Verif Require Import Num Linalg Model_Datasets.
Import ListNotations.
Local Open Scope R_scope.

(** The iris measurements as real numbers, and target 1 for the rows of one species. *)
Definition iris_X : matrix R := ds_data iris_load.
Definition is_species (c : nat) (l : list nat) : list R := map (fun t => if (t =? c)%nat then 1 else 0) l.
(** The two species that are not Setosa: the last hundred rows. *)
Definition iris_X12 : matrix R := Mat (skipn 50 (mrows iris_X)) 4.
Definition iris_y12 : list R := is_species 2 (skipn 50 (ds_target (@iris_load R NumR))).
Definition trees_X : matrix R := ds_data trees_load.
