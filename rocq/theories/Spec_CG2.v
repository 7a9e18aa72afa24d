(** * Specification of the line search of the conjugate gradient optimiser *)
From Coq Require Import List Arith Reals.
From Verif Require Import Base Num NumX Linalg Model_CG Spec_KerInv.
Import ListNotations.
Local Open Scope R_scope.

(** The cost is a real function [f] of [n] parameters, returned with a vector [g] of [n] numbers. *)
Definition real_cost (n : nat) (cost : list X -> res (X * list X)) (f : list R -> R) (g : list R -> list R) : Prop :=
  forall v, length v = n -> cost (map Fin v) = Ok (Fin (f v), map Fin (g v)) /\ length (g v) = n.
(** The point [z] steps of [s] away from [x]. *)
Definition along (x : list R) (z : R) (s : list R) : list R := map2 (fun a b => a + z * b) x s.
(** The strong Wolfe-Powell conditions for the step from [x] along [s], where [d] is taken as the slope at [x]. *)
Definition wolfe (n : nat) (f : list R -> R) (g : list R -> list R) (rho sig : R) (x s : list R) (d z : R) (x' : list R) : Prop :=
  length s = n /\ 0 <= z /\ d <= 0 /\ x' = along x z s /\ f x' <= f x + rho * z * d /\ sig * d < inner n (g x') s <= - (sig * d).
(** A step of the optimiser: [d] is the true slope, except after a failed search, when direction and slope are those of steepest
    descent at another point. *)
Definition cg_step (n : nat) (f : list R -> R) (g : list R -> list R) (rho sig : R) (x x' : list R) : Prop :=
  exists s d z, wolfe n f g rho sig x s d z x' /\
    (d = inner n (g x) s \/ exists y, length y = n /\ s = map Ropp (g y) /\ d = - inner n s s).
(** [k] steps in a row. *)
Inductive steps {A} (step : A -> A -> Prop) : nat -> A -> A -> Prop :=
| steps_O x : steps step 0 x x
| steps_S k x y z : step x y -> steps step k y z -> steps step (S k) x z.

(** A cubic polynomial and its first two derivatives. *)
Definition cubic (c0 c1 c2 c3 z : R) : R := c0 + c1 * z + c2 * z ^ 2 + c3 * z ^ 3.
Definition cubic' (c1 c2 c3 z : R) : R := c1 + 2 * c2 * z + 3 * c3 * z ^ 2.
Definition cubic'' (c2 c3 z : R) : R := 2 * c2 + 6 * c3 * z.
(** The cubic that has value [f2] and slope [d2] at the current point and value [f3] and slope [d3] at the distance [z3] from it. *)
Definition fits (c0 c1 c2 c3 : R) (st : Search R) : Prop :=
  cubic c0 c1 c2 c3 0 = ls_f2 st /\ cubic' c1 c2 c3 0 = ls_d2 st /\ cubic c0 c1 c2 c3 (ls_z3 st) = ls_f3 st /\ cubic' c1 c2 c3 (ls_z3 st) = ls_d3 st.
