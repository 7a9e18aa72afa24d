(** * Concrete cases for C171 *)
From Coq Require Import List Arith Lia Bool Reals Lra.
From Verif Require Import Base BaseLemmas Num NumFn Linalg LinalgR Spec_Calc Model_Optim Model_Regression Spec_Regression Proof_Regression Model_GLM Spec_GLM Spec_Succeeds Spec_Overlap
  Proof_GLMEx Proof_Converge2 Proof_Overlap Proof_OverlapEx Proof_Calib.
Import ListNotations.
Local Open Scope R_scope.

Lemma zigzag_best : exists p, best_fit zigzag [0; 1; 0; 1] p.
Proof. destruct zigzag_ok as (W & Hn & Ly & Hy & Sp & O & _). apply (best_exists _ _ W Hn Ly Hy Sp). exact O. Qed.
Lemma case_best : mwf zigzag /\ (0 < nrows zigzag)%nat /\ length [0; 1; 0; 1] = nrows zigzag /\ exists p, best_fit zigzag [0; 1; 0; 1] p.
Proof. destruct zigzag_ok as (W & Hn & Ly & _). repeat (split; auto using zigzag_best). Qed.
Lemma zigzag_rows : forall x, In x (mrows zigzag) -> 1 + sqnorm x <= 10.
Proof. intros x [<-|[<-|[<-|[<-|[]]]]]; unfold sqnorm; cbn; lra. Qed.
Lemma case_excess : (forall x, In x (mrows zigzag) -> 1 + sqnorm x <= 10) /\
  forall q, length q = S (mcols zigzag) -> 0 <= log_loss zigzag [0; 1; 0; 1] q.
Proof.
  destruct zigzag_ok as (W & Hn & Ly & Hy & _). split; [exact zigzag_rows|]. intros q Lq. now apply loss_ge0.
Qed.
Lemma case_training : mwf zigzag /\ labels [0; 1; 0; 1] /\ (exists z, best_fit zigzag [0; 1; 0; 1] z) /\
  (forall x, In x (mrows zigzag) -> 1 + sqnorm x <= 10) /\ 0 < gd_alpha (@gd_default R NumR) /\ gd_alpha (@gd_default R NumR) * 10 <= 4 /\ (0 < gd_iters (@gd_default R NumR))%nat.
Proof.
  destruct zigzag_ok as (W & Hn & Ly & Hy & _). split; [exact W|]. split; [exact Hy|]. split; [exact zigzag_best|]. split; [exact zigzag_rows|].
  cbn. split; [lra|]. split; [lra|lia].
Qed.
Lemma case_glm : inverse_sound inverse2 /\ mwf X0011 /\
  glm_pass inverse2 Normal (with_ones X0011) [-1; 1; -1; 1] [0; 0; 0; 0] [-1; 1; -1; 1] = Ok ([0; 0], [0; 0; 0; 0], [-1; 1; -1; 1]) /\
  glm_pass inverse2 Poisson (with_ones X0011) [0; 2; 0; 2] [1; 1; 1; 1] [-1; 1; -1; 1] = Ok ([0; 0], [1; 1; 1; 1], [-1; 1; -1; 1]).
Proof. split; [exact inverse2_sound|]. split; [repeat constructor|]. split; [exact fixed_ex_normal|exact fixed_ex_poisson]. Qed.
