(** * C171: fitted logistic and generalized linear models balance the targets *)
From Coq Require Import List Arith Lia Bool Reals Lra.
From Verif Require Import Base Num NumFn Linalg Spec_Calc Model_Optim Model_Regression Spec_Regression Model_GLM Spec_GLM Spec_GDRate Spec_Succeeds Spec_Overlap
  Proof_GLMEx Proof_OverlapEx Spec_Calib Proof_Calib Proof_CalibEx.
Import ListNotations.
Local Open Scope R_scope.

(** The parameters fit best exactly when the answers have the totals of the targets. *)
Theorem C171_best_fit : forall X y, mwf X -> (0 < nrows X)%nat -> length y = nrows X ->
  forall (self : LogisticRegressor R) p, length p = S (mcols X) -> log_parameters self = Some p ->
  exists out, log_predict self X = Ok out /\ length out = nrows X /\ (best_fit X y p <-> balances X y out).
Proof. exact best_balances. Qed.
Print Assumptions C171_best_fit.
Example C171_best_fit_ex : mwf zigzag /\ (0 < nrows zigzag)%nat /\ length [0; 1; 0; 1] = nrows zigzag /\
  exists p, best_fit zigzag [0; 1; 0; 1] p.
Proof. exact case_best. Qed.

(** Whatever the parameters: how far the totals are apart is bounded by the excess of the cost over any lower bound [m]. *)
Theorem C171_excess : forall X y, mwf X -> (0 < nrows X)%nat -> length y = nrows X ->
  forall (self : LogisticRegressor R) p, length p = S (mcols X) -> log_parameters self = Some p ->
  forall L m out, (forall x, In x (mrows X) -> 1 + sqnorm x <= L) -> 0 < L -> log_predict self X = Ok out ->
  (forall q, length q = S (mcols X) -> m <= log_loss X y q) ->
  sumR (S (mcols X)) (fun k => bias X y out k ^ 2) <= L / 2 * (log_loss X y p - m).
Proof. exact excess_bound. Qed.
Print Assumptions C171_excess.
Example C171_excess_ex : (forall x, In x (mrows zigzag) -> 1 + sqnorm x <= 10) /\
  forall q, length q = S (mcols zigzag) -> 0 <= log_loss zigzag [0; 1; 0; 1] q.
Proof. exact case_excess. Qed.

(** After training with gradient descent. *)
Theorem C171_training : forall X y z, mwf X -> (0 < nrows X)%nat -> length y = nrows X -> labels y -> best_fit X y z ->
  forall gd (self : LogisticRegressor R) L, (forall x, In x (mrows X) -> 1 + sqnorm x <= L) -> 0 < gd_alpha gd -> gd_alpha gd * L <= 4 -> (0 < gd_iters gd)%nat ->
  exists self' out, log_train (gd_optimize gd) self X y = (self', Ok tt) /\ log_predict self' X = Ok out /\
    let D := dist2 (repeat (1 / 2) (S (mcols X))) z in
    let S := sumR (S (mcols X)) (fun k => bias X y out k ^ 2) in
    (S <= L / 2 * (D / (2 * gd_alpha gd * INR (gd_iters gd))) \/ S <= L / 2 * (sqrt (2 * / 10 ^ 20 / gd_alpha gd) * sqrt D) \/ S <= L / 2 * / 10 ^ 20).
Proof. exact training_balances. Qed.
Print Assumptions C171_training.
Example C171_training_ex : mwf zigzag /\ labels [0; 1; 0; 1] /\ (exists z, best_fit zigzag [0; 1; 0; 1] z) /\
  (forall x, In x (mrows zigzag) -> 1 + sqnorm x <= 10) /\ 0 < gd_alpha (@gd_default R NumR) /\ gd_alpha (@gd_default R NumR) * 10 <= 4 /\ (0 < gd_iters (@gd_default R NumR))%nat.
Proof. exact case_training. Qed.

(** A pass of a generalized linear model that reproduces itself balances the targets. *)
Theorem C171_glm_normal : forall inverse X y mu z b, inverse_sound inverse -> mwf X -> length y = nrows X -> length mu = nrows X -> length z = nrows X ->
  glm_pass inverse Normal (with_ones X) y mu z = Ok (b, mu, z) -> glm_predict Normal {| glm_parameters := Some b |} X = Ok mu /\ balances X y mu.
Proof. exact normal_balances. Qed.
Print Assumptions C171_glm_normal.
Theorem C171_glm_poisson : forall inverse X y mu z b, inverse_sound inverse -> mwf X -> length y = nrows X -> length mu = nrows X -> length z = nrows X ->
  glm_pass inverse Poisson (with_ones X) y mu z = Ok (b, mu, z) -> glm_predict Poisson {| glm_parameters := Some b |} X = Ok mu /\ balances X y mu.
Proof. exact poisson_balances. Qed.
Print Assumptions C171_glm_poisson.
Example C171_glm_ex : inverse_sound inverse2 /\ mwf X0011 /\
  glm_pass inverse2 Normal (with_ones X0011) [-1; 1; -1; 1] [0; 0; 0; 0] [-1; 1; -1; 1] = Ok ([0; 0], [0; 0; 0; 0], [-1; 1; -1; 1]) /\
  glm_pass inverse2 Poisson (with_ones X0011) [0; 2; 0; 2] [1; 1; 1; 1] [-1; 1; -1; 1] = Ok ([0; 0], [1; 1; 1; 1], [-1; 1; -1; 1]).
Proof. exact case_glm. Qed.
