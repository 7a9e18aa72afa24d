(** * What a nearest-neighbour search and a vote must return *)
From Coq Require Import List Arith Bool Reals.
From Verif Require Import Num Linalg Spec_Calc.
Import ListNotations.

(** The straight-line distance between two points with [n] coordinates. *)
Definition euclid (n : nat) (a b : list R) : R :=
  sqrt (fold_right Rplus 0%R (map (fun j => ((nth j a 0 - nth j b 0) ^ 2)%R) (seq 0 n))).

Section Order.
  Context {F : Type} {N : Num F}.

  (** [idx], [ds] are distinct row numbers below [n] with their distances [D], nearest first. *)
  Definition genuine (n : nat) (D : nat -> F) (idx : list nat) (ds : list F) : Prop :=
    NoDup idx /\ (forall i, In i idx -> i < n) /\ ds = map D idx /\
    (forall a b, a < b -> b < length ds -> nltb (nth b ds nzero) (nth a ds nzero) = false).

  (** ... and they are [k] nearest ones: exactly [k], and no row left out is strictly nearer than
      one returned. *)
  Definition k_nearest (n k : nat) (D : nat -> F) (idx : list nat) (ds : list F) : Prop :=
    genuine n D idx ds /\ length idx = k /\
    (forall i j, In i idx -> j < n -> ~ In j idx -> nltb (D j) (D i) = false).
End Order.

(** The label a majority vote must give: one of the most frequent, the smallest of those. *)
Definition is_vote (labels : list nat) (l : nat) : Prop :=
  In l labels /\
  forall l', count_occ Nat.eq_dec labels l' <= count_occ Nat.eq_dec labels l /\
             (In l' labels -> count_occ Nat.eq_dec labels l' = count_occ Nat.eq_dec labels l -> l <= l').

(** The rows numbered [S] are [m] different rows with equal contents. *)
Definition equal_rows {F} (data : matrix F) (S : list nat) (m : nat) : Prop :=
  NoDup S /\ length S = m /\ (forall i, In i S -> i < nrows data) /\
  (forall i j, In i S -> In j S -> nth i (mrows data) [] = nth j (mrows data) []).

From Verif Require Import Model_KNN.

Section Trees.
  Context {F : Type} {N : Num F} {G : Type}.

  (** The rows stored in the leaves. *)
  Fixpoint stored (t : node (F := F) G) : list nat :=
    match t with Leaf c => c | Branch _ _ _ l r => stored l ++ stored r end.
  (** The contents of each leaf. *)
  Fixpoint leaves (t : node (F := F) G) : list (list nat) :=
    match t with Leaf c => [c] | Branch _ _ _ l r => leaves l ++ leaves r end.
  (** The leaf on the query's side of every split. *)
  Fixpoint home (point : list F) (t : node (F := F) G) : list nat :=
    match t with
    | Leaf c => c
    | Branch dim sp _ l r => if nltb (nth dim point nzero) sp then home point l else home point r
    end.
End Trees.

(** No NaN among the entries of the matrix / the point. *)
Definition no_nan_data {F} {N : Num F} (m : matrix F) : Prop :=
  forall i j, i < nrows m -> j < mcols m -> nnan (nth j (nth i (mrows m) []) nzero) = false.

(** Only finite entries. *)
Definition finite_list {F} {N : Num F} (l : list F) : Prop := forall x, In x l -> nfinite x = true.
Definition finite_data {F} {N : Num F} (m : matrix F) : Prop :=
  forall i, i < nrows m -> finite_list (nth i (mrows m) []).

(** The recorded geometry of every branch holds all rows stored below it. *)
Fixpoint in_boxes {F} {N : Num F} (m : matrix F) (t : node (F := F) (list F * list F)) : Prop :=
  match t with
  | Leaf _ => True
  | Branch _ _ (mn, mx) l r =>
      (forall i j, In i (stored t) -> j < mcols m ->
         nltb (nth j (nth i (mrows m) []) nzero) (nth j mn nzero) = false /\
         nltb (nth j mx nzero) (nth j (nth i (mrows m) []) nzero) = false) /\
      in_boxes m l /\ in_boxes m r
  end.
Fixpoint in_balls (m : matrix R) (t : node (F := R) (list R * R)) : Prop :=
  match t with
  | Leaf _ => True
  | Branch _ _ (c, rad) l r =>
      (forall i, In i (stored t) -> (euclid (mcols m) c (nth i (mrows m) []) <= rad)%R) /\
      in_balls m l /\ in_balls m r
  end.
