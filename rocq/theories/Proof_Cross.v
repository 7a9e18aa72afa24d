(** * Models that cannot answer exclusive-or (C196) *)
From Coq Require Import List Arith Lia Bool Reals Lra.
From Verif Require Import Base BaseLemmas Num NumFn NumOrd Linalg LinalgR Model_KNN Model_History Spec_Between Spec_Cross Spec_KNN2 Proof_KNN2.
Import ListNotations.
Local Open Scope R_scope.

Lemma convex_never_crossed {A} (predict : matrix R -> res A) : convex_regions predict -> never_crossed predict.
Proof.
  intros C x x' y y' c c' (L & L' & t & s & Ht & Hs & E) Hx Hx' Hy Hy'.
  pose proof (C x x' c t L Hx Hx' Ht) as P. pose proof (C y y' c' s L' Hy Hy' Hs) as Q. rewrite E in P. congruence.
Qed.
Lemma between_never_split predict : in_between predict -> never_split predict.
Proof.
  intros B x x' y y' a a' b b' h (L & L' & t & s & Ht & Hs & E) Hx Hx' Hy Hy' (H1 & H2 & H3 & H4).
  destruct (B x x' a a' t L Hx Hx' Ht) as (u & Pu & Ru & _). destruct (B y y' b b' s L' Hy Hy' Hs) as (v & Pv & _ & Rv).
  rewrite E, Pv in Pu. injection Pu as <-. assert (h < Rmin a a') by (now apply Rmin_glb_lt). assert (Rmax b b' <= h) by (now apply Rmax_lub). lra.
Qed.
Lemma affine_between predict : affine_answers predict -> in_between predict.
Proof.
  intros H x y a b t L Hx Hy Ht. exists (t * a + (1 - t) * b). split; [now apply H|].
  pose proof (Rmin_l a b). pose proof (Rmin_r a b). pose proof (Rmax_l a b). pose proof (Rmax_r a b). split; nra.
Qed.
(** The corners of the unit square. *)
Lemma square_crossing : crossing [0; 0] [1; 1] [0; 1] [1; 0].
Proof. repeat split. exists (1 / 2), (1 / 2). repeat split; try lra. unfold mix. cbn [map2]. apply (f_equal2 cons); [lra|apply (f_equal2 cons); [lra|reflexivity]]. Qed.
Definition square : matrix R := Mat [[0; 0]; [1; 1]; [0; 1]; [1; 0]] 2.
Lemma square_rows i j : (i < 4)%nat -> (j < 4)%nat -> nth j (mrows square) [] = nth i (mrows square) [] -> j = i.
Proof.
  intros Hi Hj E. destruct i as [|[|[|[|i]]]]; try lia; destruct j as [|[|[|[|j]]]]; try lia; try reflexivity; cbn in E; exfalso; injection E; intros; lra.
Qed.
Theorem neighbour_xor s0 t0 : exists c', knn_train brute_builder {| knn_k := 1; knn_searcher := s0; knn_target := t0 |} square [0; 0; 1; 1]%nat = (c', Ok tt) /\
  knn_predict (brute_search (F := R)) c' square = Ok [0; 0; 1; 1]%nat.
Proof.
  assert (W : mwf square) by repeat constructor. assert (L : length [0; 0; 1; 1]%nat = nrows square) by reflexivity. assert (P : (0 < nrows square)%nat) by (cbn; lia).
  destruct (brute_recalls 1 s0 t0 square [0; 0; 1; 1]%nat eq_refl W L P) as (c' & out & T & Q & Lo & H). exists c'. split; [exact T|]. rewrite Q. f_equal.
  apply (nth_ext _ _ 0%nat 0%nat); [exact Lo|]. rewrite Lo. intros i Hi. destruct (H i Hi) as (j & Hj & E & ->). now rewrite (square_rows i j Hi Hj E).
Qed.
