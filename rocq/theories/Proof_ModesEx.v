(** Concrete cases for [Props_Modes]. *)
From Coq Require Import List Arith Reals Lra Lia.
From Verif Require Import Base BaseLemmas Num Linalg LinalgR Spec_Regression Spec_Modes.
Import ListNotations.
Local Open Scope R_scope.

(** Two rows at -4 and 4, on the line y = x: the slope is a direction with lambda = 16, so a step of 3/10 multiplies
    the error of the slope by -19/5. *)
Definition X_steep : matrix R := Mat [[-4]; [4]] 1.
Definition y_steep : list R := [-4; 4].
Lemma steep_wf : mwf X_steep.
Proof. repeat constructor. Qed.
Lemma steep_slope : mode X_steep [0; 1] 16.
Proof.
  split; [reflexivity|]. intros [|a [|b [|c u]]] L; try discriminate L. unfold inner_prod, X_steep, affine. cbn. lra.
Qed.
Lemma steep_intercept : mode X_steep [1; 0] 1.
Proof.
  split; [reflexivity|]. intros [|a [|b [|c u]]] L; try discriminate L. unfold inner_prod, X_steep, affine. cbn. lra.
Qed.
Lemma steep_fit : best_fit X_steep y_steep [0; 1].
Proof.
  split; [reflexivity|]. intros [|a [|b [|c u]]] L; try discriminate L. apply Rle_trans with 0.
  - apply Req_le. unfold rss, affine, X_steep, y_steep. cbn. ring.
  - unfold rss. apply sumR_ge0. intros i _. apply pow2_ge_0.
Qed.
