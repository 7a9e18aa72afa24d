(** * A concrete motion and a concrete clustering *)
From Coq Require Import List Arith Lia Bool Reals Lra.
From Verif Require Import Base BaseLemmas Num NumX Linalg LinalgR Model_KMeans Spec_Calc Spec_KMeans Spec_Transforms Spec_DBSCAN2 Spec_KMInv.
From Verif Require Import Proof_KMeans Proof_KMeansEx Proof_KMInv.
Import ListNotations.

(** A turn of the plane (cosine 3/5, sine 4/5), a shift, and a new third coordinate that is always 7. *)
Definition turned (x : list R) : list R :=
  [5 + (3 / 5 * nth 0 x 0 - 4 / 5 * nth 1 x 0); -2 + (4 / 5 * nth 0 x 0 + 3 / 5 * nth 1 x 0); 7]%R.
Lemma turned_motion : motion 2 3 turned.
Proof.
  exists (fun j k => nth k (nth j [[3 / 5; - (4 / 5)]; [4 / 5; 3 / 5]; [0; 0]]%R []) 0%R), (fun j => nth j [5; -2; 7]%R 0%R). split.
  - intros x L. split; [reflexivity|]. intros [|[|[|j]]] Hj; try lia; cbn; lra.
  - intros [|[|k]] [|[|l]] Hk Hl; try lia; cbn; lra.
Qed.

Lemma lloyd_shape {F} {N : Num F} tol k (M : matrix F) : 0 < k -> forall iters cost C, mcols C = mcols M -> nrows C = k ->
  exists C', lloyd tol k M iters cost C = Ok C' /\ mcols C' = mcols M /\ nrows C' = k.
Proof.
  intros K. induction iters as [|n IH]; intros cost C W KC; cbn [lloyd]; [eauto|].
  destruct (find_closest_total C M W) as (a & d & -> & L); [lia|]. cbn [rbind]. rewrite update_spec by auto. cbn [rbind].
  assert (E : nrows (Mat (map (class_mean M a) (seq 0 k)) (mcols M)) = k) by (unfold nrows; cbn; now rewrite map_length, seq_length).
  destruct (nltb _ tol); [eexists; repeat split; eauto|]. now apply IH.
Qed.
Lemma clusters_total {F} {N : Num F} tol k iters (C M Q : matrix F) : 0 < k <= nrows M -> mcols C = mcols M -> nrows C = k -> mcols Q = mcols M ->
  exists l, clusters tol (km_new k iters) (Ok C) M Q = Ok l /\ length l = nrows Q.
Proof.
  intros [P LE] W K WQ. unfold clusters, km_train, init_centroids. cbn [km_k km_new]. rewrite (proj2 (Nat.ltb_ge _ _) LE). cbn [rbind].
  rewrite K, W, !Nat.eqb_refl. cbn [negb]. destruct (lloyd_shape tol k M P (km_iters (km_new (F := F) k iters)) nzero C W K) as (C' & -> & W' & K').
  unfold km_predict. cbn. destruct (find_closest_total C' Q) as (a & d & -> & L); [congruence|lia|]. cbn. eauto.
Qed.
Definition five : matrix R := Mat [[0; 0]; [1; 0]; [0; 1]; [9; 9]; [8; 9]]%R 2.
Definition five_start : matrix R := Mat [[0; 0]; [1; 0]]%R 2.
Lemma five_example : motion 2 3 turned /\ mwf five /\ mwf five_start /\
  exists l, clusters (Fin (/ 10 ^ 14)) (km_new 2 100) (Ok (inj five_start)) (inj five) (inj five) = Ok l /\ length l = 5.
Proof.
  split; [exact turned_motion|]. split; [repeat constructor|]. split; [repeat constructor|].
  apply (clusters_total (Fin (/ 10 ^ 14)) 2 100 (inj five_start) (inj five) (inj five)); auto. cbn. lia.
Qed.
