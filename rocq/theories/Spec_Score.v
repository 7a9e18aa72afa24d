(** * Specification of the classification scores by counting *)
From Coq Require Import List Arith Bool Reals.
From Verif Require Import Base NumX.
Import ListNotations.

(** Number of positions [i] with [P o_i t_i]. *)
Fixpoint count2 {T} (P : T -> T -> bool) (os ts : list T) : nat :=
  match os, ts with
  | o :: os', t :: ts' => (if P o t then 1 else 0) + count2 P os' ts'
  | _, _ => 0
  end.

(** The IEEE quotient of two counts: NaN for 0/0. *)
Definition ratio (a b : nat) : X := if b =? 0 then NaN else Fin (INR a / INR b).

Section Counts.
  Context {T : Type} (eqb : T -> T -> bool) (zero one : T).
  Definition TP (os ts : list T) := count2 (fun o t => eqb o one && eqb t one) os ts.
  Definition FP (os ts : list T) := count2 (fun o t => eqb o one && eqb t zero) os ts.
  Definition FN (os ts : list T) := count2 (fun o t => eqb o zero && eqb t one) os ts.
  Definition two_class (l : list T) : Prop := forall x, In x l -> x = zero \/ x = one.
End Counts.
