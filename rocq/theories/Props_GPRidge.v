(** * C135: Gaussian-process prediction as penalised least squares ([src/learning/gp.rs]) *)
From Coq Require Import List Arith Lia Bool Reals Lra.
From Verif Require Import Base Num Linalg Spec_Calc Model_Kernel Spec_Kernel Proof_Kernel Model_GP Spec_GP Spec_GPRidge Proof_GPRidge Proof_GPEx Proof_GPRidgeEx.
Import ListNotations.
Local Open Scope R_scope.

(** C135: the prediction is the mean function plus the function [f] that minimises the squared residuals plus noise times squared
    norm among all finite combinations of kernel functions, and with noise nothing else does; without noise [f] has the least norm
    of all interpolating functions. *)
Theorem C135_penalised_least_squares : forall (ker : Kernel R) k mean cholesky solve_l solve_u (self self' : GaussianProcess R) X y,
  cholesky_sound cholesky -> triangular_sound lower_triangular solve_l -> triangular_sound upper_triangular solve_u -> mwf X -> kernel_is (mcols X) ker k -> psd_kernel (mcols X) ker ->
  (forall x x', length x = mcols X -> length x' = mcols X -> k x x' = k x' x) -> 0 <= gp_noise self -> gp_train ker mean cholesky solve_l solve_u self X y = (self', Ok tt) ->
  exists f, points_in (mcols X) f /\
    (forall Xs, mwf Xs -> mcols Xs = mcols X -> length (mean Xs) = nrows Xs -> exists out, gp_predict ker mean self' Xs = Ok out /\ length out = nrows Xs /\
       forall i, (i < nrows Xs)%nat -> nth i out 0 = nth i (mean Xs) 0 + value k f (pt Xs i)) /\
    let d := fun i => nth i y 0 - nth i (mean X) 0 in
    forall g, points_in (mcols X) g ->
      penalised k (gp_noise self) X d f <= penalised k (gp_noise self) X d g /\
      (0 < gp_noise self -> penalised k (gp_noise self) X d g = penalised k (gp_noise self) X d f -> forall x, length x = mcols X -> value k g x = value k f x) /\
      (gp_noise self = 0 -> (forall i, (i < nrows X)%nat -> value k g (pt X i) = d i) -> norm2 k f <= norm2 k g).
Proof. exact gp_ridge. Qed.
Print Assumptions C135_penalised_least_squares.
Example C135_ex : cholesky_sound cholesky1 /\ (forall shape, triangular_sound shape triangular1) /\ mwf GX /\ kernel_is (mcols GX) (k_squared_exp 1 1) se /\
  psd_kernel (mcols GX) (k_squared_exp 1 1) /\ (forall x x', length x = mcols GX -> length x' = mcols GX -> se x x' = se x' x) /\
  (exists self', gp_train (k_squared_exp 1 1) (const_mean 1) cholesky1 triangular1 triangular1 (gp_new 0) GX [9] = (self', Ok tt)) /\
  (exists self', gp_train (k_squared_exp 1 1) (const_mean 1) cholesky1 triangular1 triangular1 (gp_new 3) GX [9] = (self', Ok tt)) /\
  points_in (mcols GX) [(2, [5]); (1, [0])] /\ norm2 se [(2, [1])] = 4.
Proof. exact ridge_ex. Qed.
