(** * Base: outcomes of Rust calls, list cells, random choices

    Conventions used by every [Model_*.v] file.  Nothing here is specific to one
    Rust file; each definition says which Rust feature it stands for. *)
From Coq Require Import List Arith Lia Bool Reals.
Import ListNotations.

(** [src/learning/error.rs] lines 13-36: the error kinds of the crate. *)
Inductive ErrorKind : Set :=
| InvalidParameters | InvalidData | InvalidState | UntrainedModel | LinearAlgebra.

(** Outcome of a Rust call: a normal return, an [Err] of [LearningResult]
    ([src/lib.rs] line 150), or a panic (failed assert, index out of bounds, explicit [panic!]).
    Error messages are not modelled. *)
Inductive res (A : Type) : Type :=
| Ok (a : A)
| Err (k : ErrorKind)
| Panic.
Arguments Ok {A} a. Arguments Err {A} k. Arguments Panic {A}.

(** The [?] operator and sequencing. *)
Definition rbind {A B} (r : res A) (f : A -> res B) : res B :=
  match r with Ok a => f a | Err k => Err k | Panic => Panic end.

Notation "'let?' x ':=' r 'in' f" := (rbind r (fun x => f))
  (at level 200, x pattern, r at level 100, f at level 200, right associativity).

(** [assert!(b)] followed by [k]. *)
Definition rassert {A} (b : bool) (k : res A) : res A := if b then k else Panic.

(** Index access that panics when out of range (Rust slice indexing). *)
Definition ridx {A} (l : list A) (i : nat) : res A :=
  match nth_error l i with Some a => Ok a | None => Panic end.

(** Sequential map stopping at the first non-[Ok]. *)
Fixpoint rmap {A B} (f : A -> res B) (l : list A) : res (list B) :=
  match l with
  | [] => Ok []
  | a :: l' => let? b := f a in let? bs := rmap f l' in Ok (b :: bs)
  end.

(** [v[i] = x] on a slice; [None] is the out-of-bounds panic. *)
Fixpoint upd {A} (l : list A) (i : nat) (x : A) : option (list A) :=
  match l, i with
  | [], _ => None
  | _ :: l', 0 => Some (x :: l')
  | a :: l', S i' => match upd l' i' x with Some l'' => Some (a :: l'') | None => None end
  end.

(** [slice.swap(i, j)]; [None] is the out-of-bounds panic. *)
Definition swap {A} (l : list A) (i j : nat) : option (list A) :=
  match nth_error l i, nth_error l j with
  | Some a, Some b => match upd l i b with Some l' => upd l' j a | None => None end
  | _, _ => None
  end.

(** A computation drawing from the [rand] crate.  [RGen hi k] is
    [rng.gen_range(0, hi)] on [usize]: it panics when [hi = 0], otherwise each of
    [0 .. hi-1] is drawn with the same probability and passed to [k]. [RPanic] is a panic
    (or, where the Rust code uses uninitialised memory, an undefined read). *)
Inductive Rnd (A : Type) : Type :=
| RRet (a : A)
| RGen (hi : nat) (k : nat -> Rnd A)
| RPanic.
Arguments RRet {A} a. Arguments RGen {A} hi k. Arguments RPanic {A}.

(** First [p], then [f] with its answer; draws are made in this order. No counterpart in /repo: sequencing of statements. *)
Fixpoint rnd_bind {A B} (p : Rnd A) (f : A -> Rnd B) : Rnd B :=
  match p with
  | RRet a => f a
  | RGen hi k => RGen hi (fun i => rnd_bind (k i) f)
  | RPanic => RPanic
  end.

Notation "'let!' x ':=' r 'in' f" := (rnd_bind r (fun x => f))
  (at level 200, x pattern, r at level 100, f at level 200, right associativity).

(** Lift an index operation that may panic. *)
Definition rnd_opt {A} (o : option A) : Rnd A :=
  match o with Some a => RRet a | None => RPanic end.

(** [rng.gen_range(0, hi)]. *)
Definition gen_range (hi : nat) : Rnd nat := RGen hi (fun i => RRet i).

(** [for i in start .. start+m { body }] threading the state [s]. *)
Fixpoint rnd_for {S} (start m : nat) (body : nat -> S -> Rnd S) (s : S) : Rnd S :=
  match m with
  | 0 => RRet s
  | Datatypes.S m' => let! s' := body start s in rnd_for (Datatypes.S start) m' body s'
  end.

(** [outcome p (Some a)]: some sequence of draws makes [p] return [a];
    [outcome p None]: some sequence of draws makes [p] panic. *)
Inductive outcome {A} : Rnd A -> option A -> Prop :=
| out_ret a : outcome (RRet a) (Some a)
| out_gen hi k i o : i < hi -> outcome (k i) o -> outcome (RGen hi k) o
| out_gen0 k : outcome (RGen 0 k) None
| out_panic : outcome RPanic None.

(** Sum of [f 0 + ... + f (n-1)] over the reals. *)
Fixpoint sumR (n : nat) (f : nat -> R) : R :=
  match n with 0 => 0%R | S m => (sumR m f + f m)%R end.

(** Expected value of [f] over the draws of [p] (0 on panicking paths).  With [f] the
    indicator of an event this is the probability of the event. *)
Fixpoint expect {A} (p : Rnd A) (f : A -> R) : R :=
  match p with
  | RRet a => f a
  | RGen hi k => (sumR hi (fun i => expect (k i) f) / INR hi)%R
  | RPanic => 0%R
  end.

(** Indicator of a boolean event, and the probability of an event. *)
Definition ind (b : bool) : R := if b then 1%R else 0%R.
(** Probability of an event; the draws are those of the [rand] crate (rand_utils.rs lines 30, 69, 105, k_means.rs lines 282, 304). *)
Definition prob {A} (p : Rnd A) (event : A -> bool) : R := expect p (fun a => ind (event a)).
