(** * Model of [src/analysis/cross_validation.rs] *)
From Coq Require Import List Arith Bool.
From Verif Require Import Base Model_Rand.
Import ListNotations.

(** Slice [&v[a..b]] (cross_validation.rs lines 190-192); [None] is the panic of a bad range. *)
Definition slice {A} (l : list A) (a b : nat) : option (list A) :=
  if (a <=? b) && (b <=? length l) then Some (firstn (b - a) (skipn a l)) else None.

(** cross_validation.rs lines 176-197: [Folds::next] at counter [count]; the pair is
    (training indices, test indices); [None] is a slicing panic. *)
Definition fold_at (indices : list nat) (num_folds count : nat) : option (list nat * list nat) :=
  let num_samples := length indices in
  let q := num_samples / num_folds in
  let r := num_samples mod num_folds in
  let fold_start := count * q + Nat.min count r in
  let fold_size := if r <=? count then q else q + 1 in
  let fold_end := fold_start + fold_size in
  match slice indices 0 fold_start, slice indices fold_end num_samples, slice indices fold_start fold_end with
  | Some prefix, Some suffix, Some infix => Some (prefix ++ suffix, infix)
  | _, _, _ => None
  end.

(** cross_validation.rs lines 173-198: the [m] folds from counter [count] on. *)
Fixpoint folds_from (indices : list nat) (num_folds count m : nat) : res (list (list nat * list nat)) :=
  match m with
  | 0 => Ok []
  | S m' =>
      match fold_at indices num_folds count with
      | None => Panic
      | Some p => let? ps := folds_from indices num_folds (S count) m' in Ok (p :: ps)
      end
  end.

(** cross_validation.rs lines 160-198: all folds produced by the iterator. The iterator is lazy in
    Rust; slicing panics (proved impossible) would occur when the fold is reached. *)
Definition folds (indices : list nat) (num_folds : nat) : res (list (list nat * list nat)) :=
  rassert ((1 <? num_folds) && (num_folds <=? length indices))
    (folds_from indices num_folds 0 num_folds).

(** [Matrix::select_rows] of [rulinalg] (cross_validation.rs lines 63-66): rows by index, panicking out of range. *)
Definition select_rows {X} (rows : list X) (idx : list nat) : res (list X) := rmap (ridx rows) idx.

Section KFold.
  (** An arbitrary [SupModel]: [train] returns its result and the new model state (the state is
      changed even when it fails), [predict] does not change the state.  Rows of inputs and
      targets are abstract; internal randomness of the model is part of its state. *)
  Context {M X Y F : Type}.
  Variable train : M -> list X -> list Y -> res unit * M.
  Variable predict : M -> list X -> res (list Y).
  Variable score : list Y -> list Y -> res F.

  (** cross_validation.rs lines 61-75: the loop over the folds; returns the scores pushed so far
      followed by the rest, and the final model state. *)
  Fixpoint kfold_loop (inputs : list X) (targets : list Y) (ps : list (list nat * list nat)) (model : M)
    : res (list F) * M :=
    match ps with
    | [] => (Ok [], model)
    | (tr, te) :: ps' =>
        match select_rows inputs tr, select_rows targets tr, select_rows inputs te, select_rows targets te with
        | Ok train_inputs, Ok train_targets, Ok test_inputs, Ok test_targets =>
            match train model train_inputs train_targets with
            | (Ok tt, model') =>
                match predict model' test_inputs with
                | Ok outputs =>
                    match score outputs test_targets with
                    | Ok c =>
                        match kfold_loop inputs targets ps' model' with
                        | (Ok cs, model'') => (Ok (c :: cs), model'')
                        | r => r
                        end
                    | Err k => (Err k, model')
                    | Panic => (Panic, model')
                    end
                | Err k => (Err k, model')
                | Panic => (Panic, model')
                end
            | (Err k, model') => (Err k, model')
            | (Panic, model') => (Panic, model')
            end
        | _, _, _, _ => (Panic, model)
        end
    end.

  (** cross_validation.rs lines 48-76 (with [create_shuffled_indices], lines 82-86). *)
  Definition k_fold_validate (model : M) (inputs : list X) (targets : list Y) (k : nat)
    : Rnd (res (list F) * M) :=
    if length inputs =? length targets then
      let! shuffled := in_place_fisher_yates (seq 0 (length inputs)) in
      match folds shuffled k with
      | Ok ps => RRet (kfold_loop inputs targets ps model)
      | _ => RPanic
      end
    else RPanic.
End KFold.

(** cross_validation.rs lines 56-58 and 82-86: the splits that [k_fold_validate] draws for [num_samples] samples, on their own. *)
Definition random_folds (num_samples k : nat) : Rnd (list (list nat * list nat)) :=
  let! shuffled := in_place_fisher_yates (seq 0 num_samples) in
  match folds shuffled k with
  | Ok ps => RRet ps
  | _ => RPanic
  end.
