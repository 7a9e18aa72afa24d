(** * C129, C130: how far gradient descent gets, without convexity and with strong convexity ([src/learning/optim/grad_desc.rs]) *)
From Coq Require Import List Arith Lia Bool Reals Lra.
From Verif Require Import Base Num Linalg Spec_Calc Model_Optim Spec_Optim Proof_OptimEx Model_Regression Spec_Regression Spec_GDRate Proof_GDRate Proof_GDRateEx.
Import ListNotations.
Local Open Scope R_scope.

(** C129: on any smooth cost the result is a point of the descent path; every step lowers the cost by at least
    [alpha/2] times the squared gradient; some visited point has a small gradient; the early exits are the two of C95. *)
Theorem C129_stationary : forall n f G L (self : GradientDesc R) cg start, smooth n f G L -> (forall x, length x = n -> cg x = Ok (f x, G x)) ->
  0 < gd_alpha self -> gd_alpha self * L <= 1 -> length start = n ->
  let x := descend (gd_alpha self) G start in
  exists m, (m <= gd_iters self)%nat /\ gd_optimize self cg start = Ok (x m) /\
    (forall t, (t < m)%nat -> f (x (S t)) <= f (x t) - gd_alpha self / 2 * len2 (G (x t))) /\
    (forall b, (forall y, length y = n -> b <= f y) -> (0 < m)%nat ->
       exists t, (t < m)%nat /\ INR m * len2 (G (x t)) <= 2 * (f start - b) / gd_alpha self) /\
    (m = gd_iters self \/ (0 < m)%nat /\ len2 (G (x (m - 1)%nat)) <= 2 * / 10 ^ 20 / gd_alpha self \/ m = 0%nat /\ Rabs (f start) < / 10 ^ 20).
Proof. exact gd_stationary. Qed.
Print Assumptions C129_stationary.
Example C129_ex : smooth 1 wave wave_grad 1 /\ ~ convex 1 wave wave_grad /\ (forall x, length x = 1%nat -> -1 <= wave x) /\ 0 < gd_alpha gd_ex /\ gd_alpha gd_ex * 1 <= 1.
Proof. split; [exact wave_smooth|]. split; [exact wave_not_convex|]. split; [intros x _; exact (wave_bounded x)|]. cbn. lra. Qed.

(** C130: on strongly convex smooth costs the distance to the optimum shrinks by a constant factor per step. *)
Theorem C130_linear_rate : forall n f G L mu (self : GradientDesc R) cg start, smooth n f G L -> strongly_convex n f G mu -> 0 < mu -> mu <= L ->
  (forall x, length x = n -> cg x = Ok (f x, G x)) -> 0 < gd_alpha self -> gd_alpha self * L <= 1 -> length start = n ->
  exists w, gd_optimize self cg start = Ok w /\ length w = n /\ forall q, length q = n ->
    f w - f q <= (1 - gd_alpha self * mu) ^ gd_iters self * (f start - f q) \/
    f w - f q <= / 10 ^ 20 / (gd_alpha self * mu) \/
    w = start /\ Rabs (f start) < / 10 ^ 20.
Proof. exact gd_linear. Qed.
Print Assumptions C130_linear_rate.
Example C130_ex : smooth 1 f_ex G_ex 1 /\ strongly_convex 1 f_ex G_ex 1 /\ 0 < gd_alpha gd_ex /\ gd_alpha gd_ex * 1 <= 1.
Proof. split; [exact (proj1 f_ex_smooth)|]. split; [exact strong_ex|]. cbn. lra. Qed.
(** For linear regression with gradient descent this is the case when the features are not collinear; the parameters
    are then close to those of ordinary least squares. *)
Theorem C130_regression : forall (self : LinRegressor R) X y L mu, mwf X -> (0 < nrows X)%nat -> length y = nrows X ->
  (forall x, In x (mrows X) -> 1 + sqnorm x <= L) -> 3 / 10 * L <= 1 -> 0 < mu ->
  (forall v, length v = S (mcols X) -> mu * INR (nrows X) * sqnorm v <= sumR (nrows X) (fun i => affine v (nth i (mrows X) []) ^ 2)) ->
  exists self' p, lr_train_with_optimization self X y = (self', Ok tt) /\ lr_parameters self' = Some p /\ length p = S (mcols X) /\
    (forall q, length q = S (mcols X) ->
      rss X y p - rss X y q <= (1 - 3 / 10 * mu) ^ 100 * (rss X y (repeat 0 (S (mcols X))) - rss X y q) \/
      rss X y p - rss X y q <= 20 / 3 * INR (nrows X) * / 10 ^ 20 / mu \/
      rss X y p < 2 * INR (nrows X) * / 10 ^ 20) /\
    (forall q, length q = S (mcols X) -> (forall q', length q' = S (mcols X) -> rss X y q <= rss X y q') ->
      mu * INR (nrows X) * dist2 p q <= rss X y p - rss X y q).
Proof. exact lin_gd_linear. Qed.
Print Assumptions C130_regression.
Example C130_regression_ex : let X := Mat [[1]; [-1]] 1 in mwf X /\ (0 < nrows X)%nat /\ length [1; 0] = nrows X /\
  (forall x, In x (mrows X) -> 1 + sqnorm x <= 2) /\ 3 / 10 * 2 <= 1 /\ 0 < 1 /\
  (forall v, length v = S (mcols X) -> 1 * INR (nrows X) * sqnorm v <= sumR (nrows X) (fun i => affine v (nth i (mrows X) []) ^ 2)).
Proof. exact lin_strong_ex. Qed.
