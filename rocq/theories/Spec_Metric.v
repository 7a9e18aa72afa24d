(** * Specification: mixing the answers of two models *)
From Coq Require Import List Reals.
From Verif Require Import Num Linalg Spec_Calc.

(** Every answer in [M] is the share [w] of the answer in [A] and the rest of the answer in [B]. *)
Definition mixes (w : R) (A B M : matrix R) : Prop :=
  forall i j, (i < nrows A)%nat -> (j < mcols A)%nat -> entry M i j = (w * entry A i j + (1 - w) * entry B i j)%R.

(** Where two of the three lists agree, [v] has their answer. *)
Inductive majority {T} : list T -> list T -> list T -> list T -> Prop :=
| majority_nil : majority nil nil nil nil
| majority_cons x y z w a b c v : (x = y -> w = x) -> (x = z -> w = x) -> (y = z -> w = y) -> majority a b c v -> majority (x :: a) (y :: b) (z :: c) (w :: v).
