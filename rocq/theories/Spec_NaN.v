(** * Rows with missing values (NaN) *)
From Coq Require Import List Arith Bool.
From Verif Require Import Base Num NumF NumFn Linalg Model_NaiveBayes Spec_NaiveBayes.
Import ListNotations.

(** Some entry is NaN. *)
Definition has_nan (r : list B64) : Prop := exists j, j < length r /\ nnan (nth j r nzero) = true.
(** The data without row [t]. *)
Definition drop_row {F} (t : nat) (X : matrix F) : matrix F := Mat (firstn t (mrows X) ++ skipn (S t) (mrows X)) (mcols X).
(** Row [j] of [drop_row t X] is row [past t j] of [X]. *)
Definition past (t j : nat) : nat := if j <? t then j else S j.
(** A search result with the row numbers of [drop_row t X] translated to those of [X]. *)
Definition renumber {F} (t : nat) (r : res (list nat * list F)) : res (list nat * list F) :=
  match r with Ok (idx, ds) => Ok (map (past t) idx, ds) | Err e => Err e | Panic => Panic end.

(** The logarithm of NaN is NaN. *)
Definition ln_nan {Fn : NumFn B64} : Prop := forall x : B64, nnan x = true -> nnan (nln x) = true.
(** What NaN does to the answers of a naive Bayes model with [k] classes that was trained on [inputs] with classes [cs]:
    a query with NaN gets class 0; if a training row of class 0 has a NaN every query gets class 0, and if one of
    another class has, no query gets that class. *)
Definition nan_outcome {P} (D : @Distribution B64 P) (m' : NaiveBayes B64 P) (k : nat) (inputs : matrix B64) (cs : list nat) : Prop :=
  forall M, mwf M -> mcols M = mcols inputs -> exists out, nb_predict D m' M = Ok out /\ nrows out = nrows M /\
    forall i, i < nrows M ->
      (has_nan (nth i (mrows M) []) -> nth i (mrows out) [] = one_hot k 0) /\
      forall t, t < nrows inputs -> has_nan (nth t (mrows inputs) []) ->
        (nth t cs 0 = 0 -> nth i (mrows out) [] = one_hot k 0) /\
        (0 < nth t cs 0 -> exists c, c < k /\ c <> nth t cs 0 /\ nth i (mrows out) [] = one_hot k c).
