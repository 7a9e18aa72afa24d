(** * C34, continued: classes too small for a variance ([src/learning/naive_bayes.rs]) *)
From Coq Require Import List Arith Lia Bool Reals.
From Verif Require Import Base Num NumFn Linalg Model_NaiveBayes Spec_NaiveBayes Proof_NBLonely.
Import ListNotations.

(** C34: a class with exactly one training row has no sample variance: training a Gaussian classifier is
    refused with [InvalidData], in every arithmetic and whatever the model was before. *)
Theorem C34_gaussian_lonely_class : forall (F : Type) (N : Num F) (Fn : NumFn F) (m : NaiveBayes F (Gauss F)) (inputs targets : matrix F) (cs : list nat) (c : nat),
  mwf targets -> nrows targets = nrows inputs -> labelled targets cs -> count_occ Nat.eq_dec cs c = 1 ->
  snd (nb_train Gaussian m inputs targets) = Err InvalidData.
Proof. exact @gauss_lonely. Qed.
Print Assumptions C34_gaussian_lonely_class.
Example C34_lonely_ex : mwf lonely_targets /\ nrows lonely_targets = nrows lonely_inputs /\ labelled lonely_targets [0; 0; 1] /\
  count_occ Nat.eq_dec [0; 0; 1] 1 = 1.
Proof. exact lonely_ok. Qed.
