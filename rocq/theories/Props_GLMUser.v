(** * C140, C141: families that users define with the trait [Criterion] ([src/learning/glm.rs]) *)
From Coq Require Import List Arith Reals Lra.
From Verif Require Import Base Num NumFn Linalg Model_Regression Spec_Regression Model_GLM Spec_GLM Proof_GLMEx Model_GLMUser Spec_GLMUser Proof_GLMUser.
Import ListNotations.
Local Open Scope R_scope.

(** C140: what the iteration aims at. A state that a pass reproduces solves the estimating equations of the family's link and variance. *)
Theorem C140_fixed_point : forall inverse link V X y mu z b, inverse_sound inverse -> mwf X -> length y = nrows X -> length mu = nrows X -> length z = nrows X ->
  (forall i, (i < nrows X)%nat -> V (nth i mu 0) <> 0 /\ lk_grad link (nth i mu 0) <> 0) ->
  glm_pass inverse (user_family link V) (with_ones X) y mu z = Ok (b, mu, z) -> quasi_score (lk_inv link) V (lk_grad link) X y b.
Proof. exact user_fixed. Qed.
Print Assumptions C140_fixed_point.
Example C140_ex : inverse_sound inverse2 /\ mwf X0011 /\ (forall i, (i < 4)%nat -> gamma_variance (nth i [1; 1; 1; 1] 0) <> 0 /\ lk_grad Log (nth i [1; 1; 1; 1] 0) <> 0) /\
  glm_pass inverse2 (user_family Log gamma_variance) (with_ones X0011) [/2; 3/2; /2; 3/2] [1; 1; 1; 1] [-/2; /2; -/2; /2] = Ok ([0; 0], [1; 1; 1; 1], [-/2; /2; -/2; /2]).
Proof.
  split; [exact inverse2_sound|]. split; [repeat constructor|]. split; [|exact gamma_fixed].
  assert (A : gamma_variance 1 <> 0 /\ lk_grad Log 1 <> 0) by (split; unfold gamma_variance; cbn [lk_grad Log ndiv nonev NumR]; lra).
  intros [|[|[|[|i]]]] Hi; try exact A. exfalso. apply (Nat.lt_irrefl 4). apply (Nat.le_lt_trans _ (4 + i)); [apply Nat.le_add_r|exact Hi].
Qed.
(** But training does not get there: a gamma regression with log link, trained on two rows. *)
Theorem C140_refuted_training : exists self', glm_train inverse2 (user_family Log gamma_variance) glm_new X01 [1; 3] = (self', Ok tt) /\
  exists p, glm_parameters self' = Some p /\ ~ quasi_score (lk_inv Log) gamma_variance (lk_grad Log) X01 [1; 3] p.
Proof. exact user_refuted. Qed.
Print Assumptions C140_refuted_training.

(** C141: training fits the affine function to the targets themselves, by weighted least squares, whatever the link is; the inverse link
    is applied to that function in [predict]. *)
Theorem C141_weighted_least_squares : forall inverse link V self X y self', inverse_sound inverse -> mwf X -> (forall i, (i < length y)%nat -> 0 < V (nth i y 0)) ->
  glm_train inverse (user_family link V) self X y = (self', Ok tt) ->
  length y = nrows X /\ exists p, glm_parameters self' = Some p /\ length p = S (mcols X) /\ forall w, length w = nrows X ->
    (forall i, (i < nrows X)%nat -> nth i w 0 = 1 / (V (nth i y 0) * lk_grad link (nth i y 0) ^ 2)) ->
    forall q, length q = S (mcols X) -> wrss w X y p <= wrss w X y q.
Proof. exact user_trained. Qed.
Print Assumptions C141_weighted_least_squares.
Example C141_ex : 0 < gamma_variance 1 /\ 0 < gamma_variance 3 /\
  exists self', glm_train inverse2 (user_family Log gamma_variance) glm_new X01 [1; 3] = (self', Ok tt) /\ glm_parameters self' = Some [1; 2].
Proof. unfold gamma_variance. split; [lra|]. split; [lra|]. exact (gamma_ex glm_new). Qed.
(** The crate's [Normal] is the family with these default methods, identity link and variance 1. *)
Theorem C141_normal_is_default : user_family Identity (fun _ => 1) = Normal.
Proof. exact user_normal. Qed.
Print Assumptions C141_normal_is_default.
