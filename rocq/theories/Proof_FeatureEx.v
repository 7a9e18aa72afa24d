(** * Concrete cases for [Props_Feature] *)
From Coq Require Import List Arith Lia Reals Lra.
From Verif Require Import Base Num Linalg Model_Regression Spec_Regression Spec_Succeeds Proof_Oracles Proof_SucceedsEx Spec_LSStats Spec_Feature Proof_Feature.
Import ListNotations.
Local Open Scope R_scope.

Lemma bump_single : exists p, learns solve_any (single [0; 1; 2]) [1; 4; 2] p.
Proof. apply (single_trains _ solve_any_exact). split; [reflexivity|]. exists 0, 1. cbn. repeat split; auto; lra. Qed.
Lemma bump_spans : spans (single [0; 1; 2]).
Proof.
  destruct bump_single as (p & H). apply (Proof_LSStats.learns_iff _ (single_wf _) solve_any solve_any_exact [1; 4; 2]). eauto.
Qed.
Lemma bump_both : exists q, learns solve_any (with_feature (single [0; 1; 2]) [1; -2; 1]) [1; 4; 2] q.
Proof.
  apply (feature_trains _ solve_any_exact (single [0; 1; 2]) (single_wf _) [1; -2; 1] eq_refl). split; [reflexivity|]. split; [exact bump_spans|].
  intros (g & Lg & H). cbn in Lg. destruct g as [|a [|b [|? ?]]]; try discriminate.
  pose proof (H 0%nat ltac:(cbn; lia)) as H0. pose proof (H 1%nat ltac:(cbn; lia)) as H1. pose proof (H 2%nat ltac:(cbn; lia)) as H2.
  unfold unexplained, affine in *. cbn in *. lra.
Qed.
Lemma bump_uncorrelated : forall k, (k < 1)%nat -> sumR 3 (fun i => (nth i [1; -2; 1] 0 - avg [1; -2; 1]) * nth k (nth i (mrows (single [0; 1; 2])) []) 0) = 0.
Proof. intros k Hk. assert (k = 0%nat) as -> by lia. unfold avg. cbn. lra. Qed.
Lemma bump_values : codev [0; 1; 2] [0; 1; 2] = 2 /\ codev [0; 1; 2] [1; 4; 2] = 1.
Proof. unfold codev, avg. cbn. split; field. Qed.
