(** * C124: k-means clusterings move with the data ([src/learning/k_means.rs]) *)
From Coq Require Import List Arith Bool Reals.
From Verif Require Import Base Num NumX Linalg Model_KMeans Spec_Calc Spec_Transforms Spec_DBSCAN2 Spec_KMInv Proof_KMInv Proof_KMInvEx.
Import ListNotations.

(** C124: train on moved rows from moved starting centroids; moved queries get the clusters of the original
    ones. The arithmetic is exact, with a NaN for the mean of no rows. *)
Theorem C124_same_clusters : forall n n' T, motion n n' T -> 0 < n ->
  forall (M C0 : matrix R), mwf M -> mcols M = n -> mwf C0 -> mcols C0 = n ->
  forall tol k iters Q, mwf Q -> mcols Q = n ->
  clusters tol (km_new k iters) (Ok (inj (map_rows n' T C0))) (inj (map_rows n' T M)) (inj (map_rows n' T Q)) =
  clusters tol (km_new k iters) (Ok (inj C0)) (inj M) (inj Q).
Proof. exact motion_train. Qed.
Print Assumptions C124_same_clusters.
Example C124_ex : motion 2 3 turned /\ mwf five /\ mwf five_start /\
  exists l, clusters (Fin (/ 10 ^ 14)) (km_new 2 100) (Ok (inj five_start)) (inj five) (inj five) = Ok l /\ length l = 5.
Proof. exact five_example. Qed.

(** The centroids are the moved centroids. *)
Theorem C124_centroids_move : forall n n' T, motion n n' T -> 0 < n ->
  forall (M C0 : matrix R), mwf M -> mcols M = n -> mwf C0 -> mcols C0 = n ->
  forall tol k iters C, centres tol (km_new k iters) (Ok (inj C0)) (inj M) = Some C ->
  exists C', centres tol (km_new k iters) (Ok (inj (map_rows n' T C0))) (inj (map_rows n' T M)) = Some C' /\
    mcols C' = n' /\ Forall2 (moved_row n n' T) (mrows C) (mrows C').
Proof. exact motion_centres. Qed.
Print Assumptions C124_centroids_move.

(** With the Forgy initialiser the distribution of the clusters is the same. *)
Theorem C124_forgy : forall n n' T, motion n n' T -> 0 < n ->
  forall (M Q : matrix R), mwf M -> mcols M = n -> mwf Q -> mcols Q = n ->
  forall tol k iters fuel (f : option (res (list nat)) -> R),
  expect (forgy fuel k (inj (map_rows n' T M))) (fun o => f (option_map (fun i => clusters tol (km_new k iters) i (inj (map_rows n' T M)) (inj (map_rows n' T Q))) o)) =
  expect (forgy fuel k (inj M)) (fun o => f (option_map (fun i => clusters tol (km_new k iters) i (inj M) (inj Q)) o)).
Proof. exact motion_forgy. Qed.
Print Assumptions C124_forgy.

(** Likewise with a random partition. *)
Theorem C124_random_partition : forall n n' T, motion n n' T -> 0 < n ->
  forall (M Q : matrix R), mwf M -> mcols M = n -> mwf Q -> mcols Q = n ->
  forall tol k iters (f : res (list nat) -> R),
  expect (random_partition k (inj (map_rows n' T M))) (fun i => f (clusters tol (km_new k iters) i (inj (map_rows n' T M)) (inj (map_rows n' T Q)))) =
  expect (random_partition k (inj M)) (fun i => f (clusters tol (km_new k iters) i (inj M) (inj Q))).
Proof. exact motion_partition. Qed.
Print Assumptions C124_random_partition.

(** k-means++ chooses the same rows from the same draws, and the clusters are the same. *)
Theorem C124_kmeanspp : forall n n' T, motion n n' T -> 0 < n ->
  forall (M Q : matrix R), mwf M -> mcols M = n -> mwf Q -> mcols Q = n ->
  forall tol k iters first us,
  rmap1 fst (kpp (inj (map_rows n' T M)) k first us) = rmap1 fst (kpp (inj M) k first us) /\
  clusters tol (km_new k iters) (rmap1 snd (kpp (inj (map_rows n' T M)) k first us)) (inj (map_rows n' T M)) (inj (map_rows n' T Q)) =
  clusters tol (km_new k iters) (rmap1 snd (kpp (inj M) k first us)) (inj M) (inj Q).
Proof. exact motion_kpp. Qed.
Print Assumptions C124_kmeanspp.
