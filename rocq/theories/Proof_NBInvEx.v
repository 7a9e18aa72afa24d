(** * A training set written down in several ways *)
From Coq Require Import List Arith Lia Bool Reals Lra Permutation.
From Verif Require Import Base BaseLemmas Num Linalg Spec_Calc Spec_NaiveBayes Proof_NaiveBayesEx Spec_NBInv Proof_NBInv.
Import ListNotations.
Local Open Scope R_scope.

Definition nbcs : list nat := [0; 0; 0; 1; 1; 1]%nat.
Definition nbt : matrix R := hot_targets 2 nbcs.
Definition nbx : matrix R := Mat [[0; 1]; [0; 0]; [1; 0]; [1; 1]; [0; 1]; [1; 0]] 2.
Definition nbx_units : matrix R := Mat [[5; 4]; [5; 7]; [7; 7]; [7; 4]; [5; 4]; [7; 7]] 2.
Definition nbx_order : matrix R := Mat [[1; 0]; [0; 0]; [0; 1]; [1; 1]; [1; 0]; [0; 1]] 2.
Definition nbx_code : matrix R := Mat [[0; 0]; [0; 1]; [1; 1]; [1; 0]; [0; 0]; [1; 1]] 2.
Definition nbm : matrix R := Mat [[1; 1]; [3; 2]] 2.
Definition nbm_units : matrix R := Mat [[7; 4]; [11; 1]] 2.
Definition nbm_order : matrix R := Mat [[1; 1]; [2; 3]] 2.
Definition nbm_code : matrix R := Mat [[1; 0]; [3; -1]] 2.
Definition nb_a (j : nat) : R := match j with 0%nat => 2 | _ => -3 end.
Definition nb_b (j : nat) : R := match j with 0%nat => 5 | _ => 7 end.

Ltac entries := intros [|[|[|[|[|[|?i]]]]]] [|[|?j]] ?Hi ?Hj; unfold nrows in *; cbn in *; try lia; unfold entry, nb_a, nb_b; cbn; try lra.
Lemma nb_all : forall c, (c < 2)%nat -> In c nbcs.
Proof. intros [|[|c]] Hc; cbn; lia. Qed.
Lemma nb_classified : classified nbx nbt nbm nbcs.
Proof.
  split; [repeat constructor|]. split; [reflexivity|]. split; [exact (proj1 (proj2 (proj2 (hot_classified nbx nbm 2 ltac:(lia) ltac:(repeat constructor) eq_refl nbcs eq_refl ltac:(repeat constructor) nb_all))))|]. split; [intros [|[|c]] Hc; cbn in *; lia|].
  split; [cbn; lia|]. split; [repeat constructor|reflexivity].
Qed.
Lemma nb_ready : gauss_ready nbx nbcs 2 /\ between 0 1 nbx /\ nonneg nbx.
Proof.
  split; [split|split].
  - intros [|[|c]] Hc; cbn in *; lia.
  - intros [|[|c]] [|[|j]] Hc Hj; cbn in Hj; try lia; unfold cls_var, cls_mean, csum, cnt, entry; cbn; lra.
  - entries.
  - entries.
Qed.
Lemma nb_same (A A' : matrix R) : mwf A' -> nrows A' = nrows A -> mcols A' = mcols A -> same_shape A A'.
Proof. now repeat split. Qed.
Lemma nb_units_ok : (forall j, (j < mcols nbx)%nat -> nb_a j <> 0) /\ in_units nb_a nb_b nbx nbx_units /\ in_units nb_a nb_b nbm nbm_units.
Proof.
  split; [intros [|j] _; cbn; lra|]. split; (split; [apply nb_same; [repeat constructor|reflexivity..]|entries]).
Qed.
Lemma nb_order_ok : Permutation [1; 0]%nat (seq 0 (mcols nbx)) /\ in_order [1; 0]%nat nbx nbx_order /\ in_order [1; 0]%nat nbm nbm_order.
Proof. split; [constructor|]. split; (split; [apply nb_same; [repeat constructor|reflexivity..]|entries]). Qed.
Lemma nb_code_ok : in_code (Nat.eqb 1) nbx nbx_code /\ in_code (Nat.eqb 1) nbm nbm_code.
Proof. split; (split; [apply nb_same; [repeat constructor|reflexivity..]|entries]). Qed.
Lemma nb_names_ok : length nbcs = nrows nbx /\ Forall (fun c => (c < 2)%nat) nbcs /\ (forall c, (c < 2)%nat -> In c nbcs) /\
  Permutation [1; 0]%nat (seq 0 2) /\ map (fun c => nth c [1; 0]%nat 0%nat) nbcs = [1; 1; 1; 0; 0; 0]%nat /\
  only_best 2 (fun c => bern_ll nbx nbcs c [1; 1]) 1.
Proof.
  split; [reflexivity|]. split; [repeat constructor|]. split; [exact nb_all|]. split; [constructor|]. split; [reflexivity|].
  split; [lia|]. intros [|[|d]] Hd Hn; try lia. unfold bern_ll, prior.
  assert (C : cnt nbx nbcs 0 = 3 /\ cnt nbx nbcs 1 = 3) by (unfold cnt; cbn; lra). destruct C as [C0 C1].
  assert (B : bern_p nbx nbcs 0 0 = 2 / 5 /\ bern_p nbx nbcs 0 1 = 2 / 5 /\ bern_p nbx nbcs 1 0 = 3 / 5 /\ bern_p nbx nbcs 1 1 = 3 / 5)
    by (unfold bern_p; rewrite C0, C1; unfold csum, entry; cbn; lra). destruct B as (B1 & B2 & B3 & B4).
  rewrite C0, C1. cbn [mcols nbx sumR nth]. rewrite B1, B2, B3, B4.
  assert (ln (2 / 5) < ln (3 / 5)) by (apply ln_increasing; lra). lra.
Qed.
