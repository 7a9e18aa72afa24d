(** Specification for the support vector machine. *)
From Coq Require Import List Arith Bool Reals.
From Verif Require Import Base Num NumX Linalg.
Import ListNotations.

(** How often step [t] of [draws], starting at [t0], draws row [i] and passes the test. *)
Fixpoint hits (test : nat -> nat -> bool) (i t0 : nat) (draws : list nat) : nat :=
  match draws with
  | [] => 0
  | j :: draws' => (if (j =? i) && test t0 j then 1 else 0) + hits test i (S t0) draws'
  end.

Section Any.
  Context {F : Type} {N : Num F}.
  Local Open Scope num_scope.
  (** 0 + 1 + ... + 1 *)
  Fixpoint ones (c : nat) : F := match c with O => nzero | S c' => ones c' + nonev end.
  (** The kernel is defined, with values [k], on points of dimension [dim]. *)
  Definition ker_on (ker : list F -> list F -> res F) (k : list F -> list F -> F) (dim : nat) : Prop :=
    forall x y, length x = dim -> length y = dim -> ker x y = Ok (k x y).
  (** The test made by the code: sum_j k(x_i,x_j) * y_i / (lambda t) < 1; [rows] include the leading one. *)
  Definition code_test (k : list F -> list F -> F) (lambda : F) (rows : list (list F)) (y : list F) (t i : nat) : bool :=
    vsum (map (k (nth i rows [])) rows) * nth i y nzero / (lambda * nofnat t) <? nonev.
End Any.

(** The kernelised Pegasos rule (Shalev-Shwartz et al. 2011, figure 3): at step t = 1, 2, ... the count
    of the drawn row i goes up iff y_i / (lambda t) * sum_j count_j y_j k(x_i,x_j) < 1. *)
Local Open Scope R_scope.
Fixpoint pegasos (k : list R -> list R -> R) (lambda : R) (rows : list (list R)) (y : list R) (t : nat) (draws : list nat) (counts : nat -> nat) : nat -> nat :=
  match draws with
  | [] => counts
  | i :: draws' =>
      pegasos k lambda rows y (S t) draws'
        (if Rlt_dec (nth i y 0 / (lambda * INR t) * sumR (length rows) (fun j => INR (counts j) * nth j y 0 * k (nth i rows []) (nth j rows []))) 1
         then fun j => if (j =? i)%nat then S (counts j) else counts j
         else counts)
  end.
(** Row [i] with the leading one that the model adds. *)
Definition lifted (D : matrix X) (i : nat) : list X := Fin 1 :: nth i (mrows D) [].
(** The kernel is defined, with finite values [k], on points of dimension [dim]. *)
Definition finite_kernel (ker : list X -> list X -> res X) (k : list X -> list X -> R) (dim : nat) : Prop :=
  forall x y, length x = dim -> length y = dim -> ker x y = Ok (Fin (k x y)).
(** The kernel expansion sum_j a_j y_j k(x, x_j). *)
Definition expansion (k : list X -> list X -> R) (D : matrix X) (a y : list R) (x : list X) : R :=
  sumR (nrows D) (fun j => nth j a 0 * nth j y 0 * k x (lifted D j)).
(** y_i sum_j k(x_i, x_j) < lambda t *)
Definition short_margin (k : list X -> list X -> R) (lambda : R) (D : matrix X) (y : list R) (t i : nat) : bool :=
  if Rlt_dec (nth i y 0 * sumR (nrows D) (fun j => k (lifted D i) (lifted D j))) (lambda * INR t) then true else false.
