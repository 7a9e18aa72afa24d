(** * Three points on a line *)
From Coq Require Import List Arith Lia Bool Reals Lra.
From Verif Require Import Base Num Linalg Model_KMeans Spec_KMeans Spec_KPP.
Import ListNotations.
Local Open Scope R_scope.

Definition three : matrix R := Mat [[0]; [2]; [5]] 1.
Definition three_other : matrix R := Mat [[1]; [5]] 1.
Lemma three_ex : mwf three /\ kpp three 1 0 [] = Ok ([0%nat], Mat [[0]] 1) /\ potential three (Mat [[0]] 1) = 29 /\
  nearest_sq 1 (nth 2 (mrows three) []) [[0]] = 25.
Proof. split; [repeat constructor|]. split; [reflexivity|]. unfold potential, nearest_sq, sqd. cbn. split; ring. Qed.
Lemma three_ex2 : mwf three /\ has_distinct three 2 /\ nrows three_other = 2%nat /\ potential three three_other = 2.
Proof.
  split; [repeat constructor|]. split; [|split; [reflexivity|]].
  - exists [0%nat; 1%nat]. split; auto. split; [repeat constructor|]. unfold different_rows. cbn. repeat constructor; cbn; auto.
    intros [H|[]]. injection H as H. lra.
  - unfold potential, nearest_sq, sqd. cbn. unfold Rmin. repeat destruct Rle_dec; lra.
Qed.
