(** * Model of [src/analysis/score.rs] *)
From Coq Require Import List Arith Bool.
From Verif Require Import Base Num.
Import ListNotations.

Section Score.
  Context {F : Type} {N : Num F}.
  Context {T : Type}.
  Variable eqb : T -> T -> bool.       (* PartialEq *)

  (** score.rs lines 34-46.  Iterators are lists. *)
  Definition accuracy (outputs targets : list T) : res F :=
    rassert (length outputs =? length targets)
      (let len := nofnat (length outputs) in
       let correct := length (filter (fun xy => eqb (fst xy) (snd xy)) (combine outputs targets)) in
       Ok (ndiv (nofnat correct) len)).

  Variable zero one : T.               (* T::zero(), T::one() *)

  (** score.rs lines 94-97 (and 142-145, 192-195): the label check at the end of each round. *)
  Definition not_two_class (o t : T) : bool :=
    (negb (eqb t zero) && negb (eqb t one)) || (negb (eqb o zero) && negb (eqb o one)).

  (** score.rs lines 87-98. *)
  Fixpoint precision_loop (ot : list (T * T)) (tpfp tp : F) : res (F * F) :=
    match ot with
    | [] => Ok (tpfp, tp)
    | (o, t) :: ot' =>
        let '(tpfp', tp') :=
          if eqb o one then
            (nadd tpfp nonev, if eqb t one then nadd tp nonev else tp)
          else (tpfp, tp) in
        if not_two_class o t then Panic else precision_loop ot' tpfp' tp'
    end.

  (** score.rs lines 78-100. *)
  Definition precision (outputs targets : list T) : res F :=
    rassert (length outputs =? length targets)
      (let? p := precision_loop (combine outputs targets) nzero nzero in
       let '(tpfp, tp) := p in Ok (ndiv tp tpfp)).

  (** score.rs lines 135-146. *)
  Fixpoint recall_loop (ot : list (T * T)) (tpfn tp : F) : res (F * F) :=
    match ot with
    | [] => Ok (tpfn, tp)
    | (o, t) :: ot' =>
        let '(tpfn', tp') :=
          if eqb t one then
            (nadd tpfn nonev, if eqb o one then nadd tp nonev else tp)
          else (tpfn, tp) in
        if not_two_class o t then Panic else recall_loop ot' tpfn' tp'
    end.

  (** score.rs lines 126-148. *)
  Definition recall (outputs targets : list T) : res F :=
    rassert (length outputs =? length targets)
      (let? p := recall_loop (combine outputs targets) nzero nzero in
       let '(tpfn, tp) := p in Ok (ndiv tp tpfn)).

  (** score.rs lines 184-196 (the variables are named as in the code, where [fpos] counts the
      false negatives and [fneg] the false positives). *)
  Fixpoint f1_loop (ot : list (T * T)) (tpos fpos fneg : F) : res (F * F * F) :=
    match ot with
    | [] => Ok (tpos, fpos, fneg)
    | (o, t) :: ot' =>
        let '(tpos', fpos', fneg') :=
          if eqb o one && eqb t one then (nadd tpos nonev, fpos, fneg)
          else if eqb t one then (tpos, nadd fpos nonev, fneg)
          else if eqb o one then (tpos, fpos, nadd fneg nonev)
          else (tpos, fpos, fneg) in
        if not_two_class o t then Panic else f1_loop ot' tpos' fpos' fneg'
    end.

  (** score.rs lines 174-198. *)
  Definition f1 (outputs targets : list T) : res F :=
    rassert (length outputs =? length targets)
      (let? p := f1_loop (combine outputs targets) nzero nzero nzero in
       let '(tpos, fpos, fneg) := p in
       let two := nadd nonev nonev in
       Ok (ndiv (nmul two tpos) (nadd (nadd (nmul two tpos) fneg) fpos))).
End Score.

(** Equality of [f64] slices (score.rs lines 43 and 50-52), as used by [row_accuracy]. *)
Fixpoint slice_eqb {F} {N : Num F} (a b : list F) : bool :=
  match a, b with
  | [], [] => true
  | x :: a', y :: b' => neqb x y && slice_eqb a' b'
  | _, _ => false
  end.

(** score.rs lines 49-52: accuracy of whole rows. *)
Definition row_accuracy {F} {N : Num F} (outputs targets : list (list F)) : res F :=
  accuracy slice_eqb outputs targets.
