(** * C09-C12: shuffling and sampling ([rand_utils.rs], [shuffle.rs]) *)
From Coq Require Import List Arith Bool Reals Permutation Lra Lia Binomial.
From Verif Require Import Base BaseLemmas Model_Rand Proof_Rand Proof_Rand2.
Import ListNotations.

(** C09: whatever the generator draws, [in_place_fisher_yates] does not panic and leaves a
    permutation of the slice. *)
Theorem C09_in_place_permutes : forall (A : Type) (l : list A) o,
  outcome (in_place_fisher_yates l) o -> exists t, o = Some t /\ Permutation l t.
Proof. exact @in_place_perm. Qed.
Print Assumptions C09_in_place_permutes.

Example C09_in_place_permutes_ex : outcome (in_place_fisher_yates [1;2;3]) (Some [3;1;2]).
Proof.
  unfold in_place_fisher_yates. simpl.
  apply out_gen with 2; [lia|]. simpl. apply out_gen with 1; [lia|]. simpl.
  apply out_gen with 0; [lia|]. simpl. constructor.
Qed.

(** C09: on distinct elements each of the [n!] permutations has probability [1/n!]. *)
Theorem C09_in_place_uniform : forall (A : Type) (eqd : forall x y : A, {x = y} + {x <> y}) (l t : list A),
  NoDup l -> Permutation l t ->
  prob (in_place_fisher_yates l) (fun r => if list_eq_dec eqd r t then true else false)
  = (/ INR (fact (length l)))%R.
Proof. exact @in_place_uniform. Qed.
Print Assumptions C09_in_place_uniform.

Example C09_in_place_uniform_ex :
  NoDup [1;2;3] /\ Permutation [1;2;3] [3;1;2] /\ fact (length [1;2;3]) = 6.
Proof.
  repeat split.
  - repeat constructor; simpl; intuition lia.
  - apply Permutation_sym. apply (Permutation_trans (l' := [1;3;2])); repeat constructor.
Qed.

(** C10: [fisher_yates] never reads an uninitialised cell (such a read is the outcome [None] in the
    model), and returns a permutation. *)
Theorem C10_fisher_yates_permutes : forall (A : Type) (l : list A) o,
  outcome (fisher_yates l) o -> exists t, o = Some t /\ Permutation l t.
Proof. exact @fisher_yates_perm. Qed.
Print Assumptions C10_fisher_yates_permutes.

Example C10_fisher_yates_permutes_ex : outcome (fisher_yates [1;2;3]) (Some [2;3;1]).
Proof.
  unfold fisher_yates, fisher_yates_body. simpl.
  apply out_gen with 0; [lia|]. simpl. apply out_gen with 0; [lia|]. simpl.
  apply out_gen with 1; [lia|]. simpl. constructor.
Qed.

Theorem C10_fisher_yates_uniform : forall (A : Type) (eqd : forall x y : A, {x = y} + {x <> y}) (l t : list A),
  NoDup l -> Permutation l t ->
  prob (fisher_yates l) (fun r => if list_eq_dec eqd r t then true else false)
  = (/ INR (fact (length l)))%R.
Proof. exact @fisher_yates_uniform. Qed.
Print Assumptions C10_fisher_yates_uniform.

Example C10_fisher_yates_uniform_ex :
  NoDup [1;2;3] /\ Permutation [1;2;3] [2;1;3] /\ fact (length [1;2;3]) = 6.
Proof.
  repeat split.
  - repeat constructor; simpl; intuition lia.
  - repeat constructor.
Qed.

(** C11: [reservoir_sample] panics exactly when the pool is too small; otherwise the sample has the
    requested size and consists of elements at distinct positions of the pool (the pool is a
    rearrangement of the sample followed by the elements left out). *)
Theorem C11_reservoir_sample_valid : forall (A : Type) (pool : list A) (k : nat) o,
  outcome (reservoir_sample pool k) o ->
  (length pool < k /\ o = None) \/
  (k <= length pool /\
   exists r rest, o = Some r /\ length r = k /\ Permutation pool (r ++ rest)).
Proof. exact @reservoir_sample_outcome. Qed.
Print Assumptions C11_reservoir_sample_valid.

Example C11_reservoir_sample_valid_ex : outcome (reservoir_sample [1;2;3;4] 2) (Some [4;2]).
Proof.
  unfold reservoir_sample. simpl.
  apply out_gen with 2; [lia|]. simpl. apply out_gen with 0; [lia|]. simpl. constructor.
Qed.

(** C11: every element of a pool of distinct elements is sampled with probability [k/n]. *)
Theorem C11_reservoir_inclusion_uniform :
  forall (A : Type) (eqd : forall x y : A, {x = y} + {x <> y}) (pool : list A) (k : nat) (x : A),
  NoDup pool -> 0 < k <= length pool -> In x pool ->
  prob (reservoir_sample pool k) (fun r => if in_dec eqd x r then true else false)
  = (INR k / INR (length pool))%R.
Proof. exact @reservoir_sample_uniform. Qed.
Print Assumptions C11_reservoir_inclusion_uniform.

Example C11_reservoir_inclusion_uniform_ex :
  NoDup [1;2;3;4] /\ 0 < 2 <= length [1;2;3;4] /\ In 3 [1;2;3;4].
Proof. repeat split; simpl; try lia; auto. repeat constructor; simpl; intuition lia. Qed.

(** C11: every set [T] of [k] elements of the pool is the sample with probability [1/C(n,k)] (the
    sample has [k] elements, so it is [T] when it contains all of [T]). *)
Theorem C11_reservoir_subsets_uniform :
  forall (A : Type) (eqd : forall x y : A, {x = y} + {x <> y}) (pool T : list A),
  NoDup pool -> NoDup T -> incl T pool ->
  prob (reservoir_sample pool (length T)) (fun r => forallb (fun x => if in_dec eqd x r then true else false) T)
  = (/ C (length pool) (length T))%R.
Proof. exact @sample_subset_uniform. Qed.
Print Assumptions C11_reservoir_subsets_uniform.

Example C11_reservoir_subsets_uniform_ex : NoDup [1;2;3;4] /\ NoDup [4;2] /\ incl [4;2] [1;2;3;4] /\ C 4 2 = 6%R.
Proof.
  repeat split; try (repeat constructor; simpl; intuition lia).
  - intros x [<-|[<-|[]]]; simpl; auto.
  - unfold C. simpl. field.
Qed.

(** C12: the [Shuffler] transform permutes the rows (each row intact), never fails, and is uniform. *)
Theorem C12_shuffler_permutes_rows : forall (A : Type) (rows : list (list A)) o,
  outcome (shuffler_transform rows) o -> exists t, o = Some t /\ Permutation rows t.
Proof. intros A. exact (@in_place_perm (list A)). Qed.
Print Assumptions C12_shuffler_permutes_rows.

Example C12_shuffler_permutes_rows_ex :
  outcome (shuffler_transform [[1;2];[3;4]]) (Some [[3;4];[1;2]]).
Proof.
  unfold shuffler_transform. simpl. apply out_gen with 1; [lia|]. simpl.
  apply out_gen with 0; [lia|]. simpl. constructor.
Qed.

Theorem C12_shuffler_uniform :
  forall (A : Type) (eqd : forall x y : list A, {x = y} + {x <> y}) (rows t : list (list A)),
  NoDup rows -> Permutation rows t ->
  prob (shuffler_transform rows) (fun r => if list_eq_dec eqd r t then true else false)
  = (/ INR (fact (length rows)))%R.
Proof. intros A. exact (@in_place_uniform (list A)). Qed.
Print Assumptions C12_shuffler_uniform.

Example C12_shuffler_uniform_ex : NoDup [[1];[2]] /\ Permutation [[1];[2]] [[2];[1]].
Proof. split; [repeat constructor; simpl; intuition congruence|repeat constructor]. Qed.
