(** * C178: the k-means initialisers give every choice the same chance *)
From Coq Require Import List Arith Lia Bool Reals Lra.
From Verif Require Import Base BaseLemmas Num Linalg Model_KMeans Proof_KMeans2 Spec_KMFair Proof_KMFair.
Import ListNotations.

(** Forgy: whatever the number of draws, all ordered choices of [k] different rows have the same chance ... *)
Theorem C178_forgy : forall fuel k n a, k <= n -> NoDup a -> Forall (fun i => i < n) a -> length a = k ->
  prob (forgy_loop fuel k n []) (chosen a) = ((1 - prob (forgy_loop fuel k n []) unfinished) / INR (arrangements n k))%R.
Proof. exact forgy_law. Qed.
Print Assumptions C178_forgy.
(** ... and as the loop may go on for ever: the chance is one in [n (n - 1) ... (n - k + 1)]. *)
Theorem C178_forgy_limit : forall k n a, k <= n -> NoDup a -> Forall (fun i => i < n) a -> length a = k ->
  forall eps, (0 < eps)%R -> exists f0, forall fuel, f0 <= fuel -> (Rabs (prob (forgy_loop fuel k n []) (chosen a) - / INR (arrangements n k)) < eps)%R.
Proof. exact forgy_limit. Qed.
Print Assumptions C178_forgy_limit.
Example C178_ex : 2 <= 3 /\ NoDup [2; 0] /\ Forall (fun i => i < 3) [2; 0] /\ length [2; 0] = 2 /\ arrangements 3 2 = 6 /\
  prob (forgy_loop 2 2 3 []) (chosen [2; 0]) = (/ 9)%R.
Proof. split; [lia|]. split; [repeat constructor; cbn; intuition lia|]. split; [repeat constructor|]. split; [reflexivity|]. split; [reflexivity|]. unfold prob. cbn. lra. Qed.
(** Random partition: the first [k] rows go to the [k] classes; the classes of all others are drawn fairly and independently. *)
Theorem C178_random_partition : forall k n g, k <= n -> length g = n - k -> Forall (fun c => c < k) g ->
  prob (partition_loop k n) (eqc (classes_by k g)) = ((/ INR k) ^ (n - k))%R.
Proof. exact partition_law. Qed.
Print Assumptions C178_random_partition.
Example C178_partition_ex : 2 <= 4 /\ length [1; 1] = 4 - 2 /\ Forall (fun c => c < 2) [1; 1] /\ classes_by 2 [1; 1] = [[0]; [1; 2; 3]].
Proof. split; [lia|]. split; [reflexivity|]. split; [repeat constructor|reflexivity]. Qed.
