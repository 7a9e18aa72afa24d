(** * C125, C126: k-means++ seeding ([src/learning/k_means.rs] lines 321-381) *)
From Coq Require Import List Arith Bool Reals.
From Coquelicot Require Import Hierarchy RInt.
From Verif Require Import Base Num Linalg Model_KMeans Spec_KMeans Spec_KPP Proof_KPP Proof_KPPEx.
Import ListNotations.
Local Open Scope nat_scope.

(** C125: whatever was chosen so far ([k] centroids [C]), the next centroid is the row at position [i] with
    probability the squared distance of that row to its nearest centroid over the sum of these distances:
    that is the length of the set of draws [u] in [[0, 1]] that choose [i]. *)
Theorem C125_next_centroid_law : forall (M : matrix R), mwf M -> forall k first us chosen C,
  first < nrows M -> 0 < k -> length us = k - 1 -> Forall (fun u => 0 <= u < 1)%R us ->
  kpp M k first us = Ok (chosen, C) -> (0 < potential M C)%R ->
  forall i, i < nrows M ->
  is_RInt (fun u => picks_last M (S k) first (us ++ [u]) i) 0 1 (nearest_sq (mcols M) (nth i (mrows M) []) (mrows C) / potential M C)%R.
Proof. exact next_law. Qed.
Print Assumptions C125_next_centroid_law.
Example C125_ex : mwf three /\ kpp three 1 0 [] = Ok ([0], Mat [[0%R]] 1) /\ potential three (Mat [[0%R]] 1) = 29%R /\
  nearest_sq 1 (nth 2 (mrows three) []) [[0%R]] = 25%R.
Proof. exact three_ex. Qed.

(** C126: the objective of the centroids that k-means++ chooses, averaged over its draws, is at most
    [8 (2 + ln k)] times the objective of any [k] centres [C]. ([v first]: the mean for first draw [first].) *)
Theorem C126_seeding_competitive : forall (M : matrix R), mwf M -> forall (C : matrix R) k, nrows C = k -> 0 < k -> has_distinct M k ->
  exists v, (forall first, first < nrows M -> mean_of (k - 1) (seeded M k first) (v first)) /\
    (sumR (nrows M) v / INR (nrows M) <= 8 * (2 + ln (INR k)) * potential M C)%R.
Proof. exact seeding. Qed.
Print Assumptions C126_seeding_competitive.
Example C126_ex : mwf three /\ has_distinct three 2 /\ nrows three_other = 2 /\ potential three three_other = 2%R.
Proof. exact three_ex2. Qed.
(** Means are unique. *)
Theorem C126_means_unique : forall t f v v', mean_of t f v -> mean_of t f v' -> v = v'.
Proof. exact mean_of_unique. Qed.
Print Assumptions C126_means_unique.
