(** * C122: how Gaussian-process predictions and uncertainty depend on targets, data and noise ([src/learning/gp.rs]) *)
From Coq Require Import List Arith Lia Bool Reals Lra.
From Verif Require Import Base Num Linalg Spec_Calc MatR Model_Kernel Model_GP Spec_GP Proof_GPMono Proof_GPMonoEx Proof_GPRidgeEx.
Import ListNotations.
Local Open Scope R_scope.

(** C122: more observations and less noise never raise the posterior variance. *)
Theorem C122_variance : forall (ker : Kernel R) k mean cholesky solve_l solve_u, cholesky_sound cholesky -> triangular_sound lower_triangular solve_l -> triangular_sound upper_triangular solve_u ->
  forall (s1 s1' s2 s2' : GaussianProcess R) X1 X2 y1 y2 extra,
  mwf X1 -> mwf X2 -> mcols X2 = mcols X1 -> kernel_is (mcols X1) ker k -> (forall x x', length x = mcols X1 -> length x' = mcols X1 -> k x x' = k x' x) ->
  mrows X2 = mrows X1 ++ extra -> gp_noise s2 <= gp_noise s1 ->
  gp_train ker mean cholesky solve_l solve_u s1 X1 y1 = (s1', Ok tt) -> gp_train ker mean cholesky solve_l solve_u s2 X2 y2 = (s2', Ok tt) ->
  forall Xs o1 V1 o2 V2, mwf Xs -> mcols Xs = mcols X1 -> gp_get_posterior ker mean solve_l s1' Xs = Ok (o1, V1) -> gp_get_posterior ker mean solve_l s2' Xs = Ok (o2, V2) ->
  forall i, (i < nrows Xs)%nat -> entry V2 i i <= entry V1 i i.
Proof. exact variance_monotone'. Qed.
Print Assumptions C122_variance.
Example C122_variance_case : cholesky_sound cholesky2 /\ (forall shape, triangular_sound shape triangular2) /\ mrows two2 = mrows two1 ++ [[0; 1]] /\ kernel_is (mcols two1) two_ker two_dot /\
  exists s1 s2 o1 V1 o2 V2,
    gp_train two_ker (const_mean 0) cholesky2 triangular2 triangular2 (gp_new 3) two1 [4] = (s1, Ok tt) /\
    gp_train two_ker (const_mean 0) cholesky2 triangular2 triangular2 (gp_new 3) two2 [4; 8] = (s2, Ok tt) /\
    gp_get_posterior two_ker (const_mean 0) triangular2 s1 (Mat [[1; 1]] 2) = Ok (o1, V1) /\
    gp_get_posterior two_ker (const_mean 0) triangular2 s2 (Mat [[1; 1]] 2) = Ok (o2, V2).
Proof. exact (conj cholesky2_sound (conj triangular2_sound (conj eq_refl (conj (two_is 2) two_models)))). Qed.
(** After a successful training the posterior variance has the textbook form: some weights solve the normal equations. *)
Theorem C122_solvable : forall (ker : Kernel R) k mean cholesky solve_l solve_u (self self' : GaussianProcess R) X y,
  cholesky_sound cholesky -> triangular_sound lower_triangular solve_l -> triangular_sound upper_triangular solve_u -> mwf X -> kernel_is (mcols X) ker k ->
  gp_train ker mean cholesky solve_l solve_u self X y = (self', Ok tt) -> forall d, exists w, solves k (gp_noise self) X w d.
Proof. exact solvable. Qed.
Print Assumptions C122_solvable.
(** Predictions, taken relative to the mean function, are linear in the targets. *)
Theorem C122_linear : forall (ker : Kernel R) k mean cholesky solve_l solve_u, cholesky_sound cholesky -> triangular_sound lower_triangular solve_l -> triangular_sound upper_triangular solve_u ->
  forall (s : GaussianProcess R) X y1 y2 y3 a b s1 s2 s3, mwf X -> kernel_is (mcols X) ker k ->
  gp_train ker mean cholesky solve_l solve_u s X y1 = (s1, Ok tt) -> gp_train ker mean cholesky solve_l solve_u s X y2 = (s2, Ok tt) -> gp_train ker mean cholesky solve_l solve_u s X y3 = (s3, Ok tt) ->
  (forall i, (i < nrows X)%nat -> nth i y3 0 - nth i (mean X) 0 = a * (nth i y1 0 - nth i (mean X) 0) + b * (nth i y2 0 - nth i (mean X) 0)) ->
  forall Xs, mwf Xs -> mcols Xs = mcols X -> length (mean Xs) = nrows Xs -> exists o1 o2 o3,
    gp_predict ker mean s1 Xs = Ok o1 /\ gp_predict ker mean s2 Xs = Ok o2 /\ gp_predict ker mean s3 Xs = Ok o3 /\ length o3 = nrows Xs /\
    forall i, (i < nrows Xs)%nat -> nth i o3 0 - nth i (mean Xs) 0 = a * (nth i o1 0 - nth i (mean Xs) 0) + b * (nth i o2 0 - nth i (mean Xs) 0).
Proof. exact gp_linear. Qed.
Print Assumptions C122_linear.
Example C122_linear_case : (exists s1 s2 s3,
  gp_train two_ker (const_mean 0) cholesky2 triangular2 triangular2 (gp_new 3) two2 [4; 8] = (s1, Ok tt) /\
  gp_train two_ker (const_mean 0) cholesky2 triangular2 triangular2 (gp_new 3) two2 [1; 0] = (s2, Ok tt) /\
  gp_train two_ker (const_mean 0) cholesky2 triangular2 triangular2 (gp_new 3) two2 [9; 16] = (s3, Ok tt)) /\ 9 = 2 * 4 + 1 * 1 /\ 16 = 2 * 8 + 1 * 0.
Proof. split; [exact two_targets|lra]. Qed.
(** The covariance does not depend on the targets at all; in every arithmetic. *)
Theorem C122_covariance : forall (F : Type) (N : Num F) ker mean cholesky solve_l solve_u (s s1 s2 : GaussianProcess F) X y1 y2,
  gp_train ker mean cholesky solve_l solve_u s X y1 = (s1, Ok tt) -> gp_train ker mean cholesky solve_l solve_u s X y2 = (s2, Ok tt) ->
  forall Xs o1 V1 o2 V2, gp_get_posterior ker mean solve_l s1 Xs = Ok (o1, V1) -> gp_get_posterior ker mean solve_l s2 Xs = Ok (o2, V2) -> V1 = V2.
Proof. exact @covariance_targets. Qed.
Print Assumptions C122_covariance.
