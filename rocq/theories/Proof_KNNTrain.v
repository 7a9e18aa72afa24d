(** Training a nearest-neighbour classifier with any search structure. *)
From Coq Require Import List Arith Bool Reals.
From Verif Require Import Base Num Linalg Model_KNN.
Import ListNotations.

Lemma knn_train_any (F S : Type) (s_build : S -> matrix F -> res S) (c : KNNClassifier S) inputs targets :
  ((nrows inputs <> length targets \/ nrows inputs < knn_k _ c) -> knn_train s_build c inputs targets = (c, Err InvalidData)) /\
  (nrows inputs = length targets -> knn_k _ c <= nrows inputs ->
    (s_build (knn_searcher _ c) inputs = Panic -> knn_train s_build c inputs targets = (c, Panic)) /\
    (forall e, s_build (knn_searcher _ c) inputs = Err e -> knn_train s_build c inputs targets = (c, Err e)) /\
    (forall s, s_build (knn_searcher _ c) inputs = Ok s ->
       knn_train s_build c inputs targets = ({| knn_k := knn_k _ c; knn_searcher := s; knn_target := Some targets |}, Ok tt))).
Proof.
  unfold knn_train. split.
  - intros [H|H]; [apply Nat.eqb_neq in H; now rewrite H|]. destruct (_ =? _); [|reflexivity]. cbn [negb]. apply Nat.ltb_lt in H. now rewrite H.
  - intros E K. rewrite E, Nat.eqb_refl. rewrite E in K. apply Nat.ltb_ge in K. rewrite K. cbn [negb]. repeat split; [intros ->|intros e ->|intros s ->]; reflexivity.
Qed.
