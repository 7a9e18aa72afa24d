(** * Specification: kernels that fade with the distance *)
From Coq Require Import List Reals.
From Verif Require Import Num Linalg Spec_Kernel.
Local Open Scope R_scope.

(** Kernel values of points far apart are small. *)
Definition fades (k : list R -> list R -> R) : Prop :=
  forall e, 0 < e -> exists d, forall x x', length x = length x' -> d <= sqdist x x' -> Rabs (k x x') <= e.
(** At squared distance [d] or more from every row. *)
Definition far_from (X : matrix R) (d : R) (x : list R) : Prop := forall r, In r (mrows X) -> d <= sqdist x r.
