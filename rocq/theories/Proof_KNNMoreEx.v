(** * Concrete cases for C169 and C170 *)
From Coq Require Import List Arith Lia Bool Permutation Reals Lra ZArith.
From Verif Require Import Base Num NumF Linalg LinalgR Spec_Calc Model_KNN Spec_KNN Proof_KNNEx.
Import ListNotations.

Definition four : matrix R := Mat [[1%R]; [5%R]; [2%R]; [9%R]] 1.
Definition five : matrix R := Mat [[1%R]; [3%R]; [5%R]; [2%R]; [9%R]] 1.
Lemma four_wf : mwf four. Proof. repeat constructor. Qed.
Lemma five_wf : mwf five. Proof. repeat constructor. Qed.
Lemma runs (data : matrix R) x k : mwf data -> length x = mcols data -> 1 <= k <= nrows data -> exists idx ds, brute_search (Some data) x k = Ok (idx, ds).
Proof. intros W L K. destruct (brute_real data x k W L K) as (idx & ds & E & _). eauto. Qed.
Lemma case_fewer : mwf four /\ (exists idx ds, brute_search (Some four) [2%R] 1 = Ok (idx, ds)) /\
  (exists idx ds, brute_search (Some four) [2%R] 3 = Ok (idx, ds)).
Proof. split; [exact four_wf|]. split; apply runs; try exact four_wf; try reflexivity; cbn; lia. Qed.
Lemma case_more : mwf four /\ mwf five /\ mcols five = mcols four /\ Permutation (mrows five) (mrows four ++ [[3%R]]) /\
  (exists idx ds, brute_search (Some four) [2%R] 3 = Ok (idx, ds)) /\ (exists idx ds, brute_search (Some five) [2%R] 3 = Ok (idx, ds)).
Proof.
  split; [exact four_wf|]. split; [exact five_wf|]. split; [reflexivity|]. split.
  - cbn. apply perm_skip. exact (Permutation_middle [[5%R]; [2%R]; [9%R]] [] [3%R]).
  - split; apply runs; try exact four_wf; try exact five_wf; try reflexivity; cbn; lia.
Qed.
Lemma case_all : mwf four /\ nrows four = length [3; 1; 1; 2] /\ is_vote [3; 1; 1; 2] 1 /\ mwf five /\ mcols five = mcols four.
Proof.
  split; [exact four_wf|]. split; [reflexivity|]. split; [|split; [exact five_wf|reflexivity]].
  split; [cbn; tauto|]. intros l. cbn [count_occ]. destruct (Nat.eq_dec 3 l), (Nat.eq_dec 1 l), (Nat.eq_dec 2 l); cbn; split; lia.
Qed.

Definition wide_rows : matrix B64 := Mat [[b64_of_Z 0; b64_of_Z 5]; [b64_of_Z 1; b64_of_Z 0]] 2.
Definition found_rows {A} (r : res (list nat * A)) : option (list nat) := match r with Ok p => Some (fst p) | _ => None end.
Lemma case_width : mwf wide_rows /\ mcols wide_rows = 2 /\
  found_rows (brute_search (Some wide_rows) [b64_of_Z 0] 1) = Some [0] /\
  found_rows (brute_search (Some wide_rows) [b64_of_Z 0; b64_of_Z 0] 1) = Some [1] /\
  found_rows (brute_search (Some wide_rows) [b64_of_Z 0; b64_of_Z 0; b64_of_Z 9] 1) = Some [1].
Proof. split; [repeat constructor|]. split; [reflexivity|]. split; [|split]; vm_compute; reflexivity. Qed.
