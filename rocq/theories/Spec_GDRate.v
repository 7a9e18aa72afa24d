(** What the rates of gradient descent without convexity (C129) and with strong convexity (C130) refer to. *)
From Coq Require Import List Reals.
From Verif Require Import Base Num Linalg Spec_Calc.
Import ListNotations.
Local Open Scope R_scope.

(** The point reached from [x] after [t] steps against the gradient [G]. *)
Fixpoint descend (alpha : R) (G : list R -> list R) (x : list R) (t : nat) : list R :=
  match t with O => x | S t' => descend alpha G (map2 (fun a g => a - alpha * g) x (G x)) t' end.
(** Squared length of a vector, and squared distance of two. *)
Definition len2 (v : list R) : R := sumR (length v) (fun k => nth k v 0 ^ 2).
(** Squared distance of two vectors. *)
Definition dist2 (u v : list R) : R := sumR (length u) (fun k => (nth k u 0 - nth k v 0) ^ 2).
(** [f] lies above a parabola of curvature [mu] at each of its points. *)
Definition strongly_convex (n : nat) (f : list R -> R) (G : list R -> list R) (mu : R) : Prop :=
  forall x y, length x = n -> length y = n ->
    f x + sumR n (fun k => nth k (G x) 0 * (nth k y 0 - nth k x 0)) + mu / 2 * dist2 y x <= f y.
