(** * Model of [src/analysis/confusion_matrix.rs] *)
From Coq Require Import List Arith Bool.
From Verif Require Import Base.
Import ListNotations.

Section Confusion.
  Context {T : Type}.
  (** The [Ord] comparison [<=] and the [Eq]/[Hash] equality of the label type. *)
  Variable leb : T -> T -> bool.
  Variable eqb : T -> T -> bool.

  (** [Vec::sort] (stable; confusion_matrix.rs line 82); modelled as insertion sort, which also is a stable sort. *)
  Fixpoint insert (x : T) (l : list T) : list T :=
    match l with
    | [] => [x]
    | y :: l' => if leb x y then x :: l else y :: insert x l'
    end.
  (** [ds.sort()], confusion_matrix.rs line 82. *)
  Fixpoint sort (l : list T) : list T :=
    match l with [] => [] | x :: l' => insert x (sort l') end.

  (** [Vec::dedup] (confusion_matrix.rs line 83): drop elements equal to their predecessor. *)
  Fixpoint dedup_from (x : T) (l : list T) : list T :=
    match l with
    | [] => []
    | y :: l' => if eqb x y then dedup_from x l' else y :: dedup_from y l'
    end.
  (** [ds.dedup()], confusion_matrix.rs line 83. *)
  Definition dedup (l : list T) : list T :=
    match l with [] => [] | x :: l' => x :: dedup_from x l' end.

  (** confusion_matrix.rs lines 80-85. *)
  Definition ordered_distinct (xs ys : list T) : list T := dedup (sort (xs ++ ys)).

  (** The [HashMap] of confusion_matrix.rs line 56 as an association list with the latest insertion first. *)
  Fixpoint lookup (k : T) (m : list (T * nat)) : option nat :=
    match m with
    | [] => None
    | (k', v) :: m' => if eqb k k' then Some v else lookup k m'
    end.

  (** confusion_matrix.rs lines 57-63: build [label_to_index], panicking on a repeated label. *)
  Fixpoint build_index (i : nat) (labels : list T) (m : list (T * nat)) : res (list (T * nat)) :=
    match labels with
    | [] => Ok m
    | l :: labels' =>
        match lookup l m with
        | None => build_index (S i) labels' ((l, i) :: m)
        | Some _ => Panic
        end
    end.

  (** [counts[[row, col]] += 1], confusion_matrix.rs line 73. *)
  Definition bump (counts : list (list nat)) (row col : nat) : res (list (list nat)) :=
    match nth_error counts row with
    | None => Panic
    | Some r =>
        match nth_error r col with
        | None => Panic
        | Some c =>
            match upd r col (c + 1) with
            | None => Panic
            | Some r' => match upd counts row r' with None => Panic | Some cs => Ok cs end
            end
        end
    end.

  (** confusion_matrix.rs lines 68-75: the counting loop over [targets.zip(predictions)]. *)
  Fixpoint count_loop (m : list (T * nat)) (tp : list (T * T)) (counts : list (list nat))
    : res (list (list nat)) :=
    match tp with
    | [] => Ok counts
    | (truth, pred) :: tp' =>
        match lookup truth m, lookup pred m with
        | Some row, Some col =>
            let? counts' := bump counts row col in count_loop m tp' counts'
        | _, _ => count_loop m tp' counts
        end
    end.

  (** confusion_matrix.rs lines 44-78. The [usize] counts are unbounded naturals. *)
  Definition confusion_matrix (predictions targets : list T) (labels : option (list T))
    : res (list (list nat)) :=
    rassert (length predictions =? length targets)
      (let labels := match labels with Some ls => ls | None => ordered_distinct predictions targets end in
       let? m := build_index 0 labels [] in
       count_loop m (combine targets predictions) (repeat (repeat 0 (length labels)) (length labels))).
End Confusion.
