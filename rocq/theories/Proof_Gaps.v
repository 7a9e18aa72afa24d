(** * Error paths of linear regression and of tree search *)
From Coq Require Import List Arith Lia Bool Reals.
From Verif Require Import Base Num Linalg LinalgR Model_Regression Model_KNN Model_Unsafe Spec_Unsafe.
Import ListNotations.

Theorem lr_target_count {F} {N : Num F} solve (self : LinRegressor F) X y : length y <> nrows X -> lr_train solve self X y = (self, Panic).
Proof.
  intros H. unfold lr_train, rmat_vec, rassert. replace (mcols (transpose (with_ones X))) with (nrows X).
  - apply not_eq_sym, Nat.eqb_neq in H. rewrite H. reflexivity.
  - unfold transpose, with_ones, nrows. cbn. now rewrite map_length.
Qed.
Theorem tree_untrained {F} {N : Num F} checked {G} (B : BinarySplit (F := F) G) point k :
  sound_as (m_tree_search checked B None point k) (tree_search B None point k) /\ tree_search B None point k = Err UntrainedModel.
Proof. split; [|reflexivity]. split; [discriminate|reflexivity]. Qed.
