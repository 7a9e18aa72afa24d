(** * C24, continued: training with any search structure ([src/learning/knn/mod.rs]) *)
From Coq Require Import List Arith Bool Reals.
From Verif Require Import Base Num Linalg Model_KNN Proof_KNNTrain.
Import ListNotations.

(** C24: wrong sizes are refused and leave the classifier as it was; otherwise whatever building the search structure does
    (success, error or panic) decides, and only success changes the classifier. *)
Theorem C24_training : forall (F S : Type) (s_build : S -> matrix F -> res S) (c : KNNClassifier S) inputs targets,
  ((nrows inputs <> length targets \/ nrows inputs < knn_k _ c) -> knn_train s_build c inputs targets = (c, Err InvalidData)) /\
  (nrows inputs = length targets -> knn_k _ c <= nrows inputs ->
    (s_build (knn_searcher _ c) inputs = Panic -> knn_train s_build c inputs targets = (c, Panic)) /\
    (forall e, s_build (knn_searcher _ c) inputs = Err e -> knn_train s_build c inputs targets = (c, Err e)) /\
    (forall s, s_build (knn_searcher _ c) inputs = Ok s ->
       knn_train s_build c inputs targets = ({| knn_k := knn_k _ c; knn_searcher := s; knn_target := Some targets |}, Ok tt))).
Proof. exact knn_train_any. Qed.
Print Assumptions C24_training.
Example C24_training_ex : nrows (Mat [[1%R]; [2%R]] 1) = length [4; 5] /\ 2 <= nrows (Mat [[1%R]; [2%R]] 1) /\ nrows (Mat [[1%R]; [2%R]] 1) < 3.
Proof. repeat constructor. Qed.
