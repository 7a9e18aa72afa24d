(** * Properties: repeated samples in Gaussian processes *)
From Coq Require Import List Reals Lra.
From Verif Require Import Base Num NumFn Linalg LinalgR Model_Kernel Spec_Kernel Model_GP Spec_GP Spec_Equiv Spec_Succeeds Proof_Oracles Proof_SucceedsEx Spec_GPCopies Proof_GPCopies Proof_GPPost Proof_GPCopiesEx.
Import ListNotations.
Local Open Scope R_scope.

(** C144: after a successful training [get_posterior] answers for every query matrix of the right width. *)
Theorem C144_posterior : forall (ker : Kernel R) k mean cholesky solve_l solve_u (self self' : GaussianProcess R) X y Xs,
  cholesky_sound cholesky -> triangular_exact lower_triangular solve_l -> mwf X -> kernel_is (mcols X) ker k ->
  gp_train ker mean cholesky solve_l solve_u self X y = (self', Ok tt) -> mwf Xs -> mcols Xs = mcols X -> length (mean Xs) = nrows Xs ->
  length y = nrows X -> triangular_sound upper_triangular solve_u -> exists out V, gp_get_posterior ker mean solve_l self' Xs = Ok (out, V).
Proof. exact posterior_succeeds. Qed.
Print Assumptions C144_posterior.
Example C144_posterior_ex : exists m, gp_train (k_squared_exp 1 1) (const_mean 1) cholesky_any solve_any solve_any (gp_new (/ 10)) Line [9; 4; 1] = (m, Ok tt) /\
  mwf Line /\ length (const_mean 1 Line) = nrows Line.
Proof. destruct gp_trains_ex as (m & E). exists m. exact (conj E (conj Line_wf eq_refl)). Qed.

(** C186: every sample [q] times with [q] times the noise gives the same predictions. *)
Theorem C186_predict : forall (ker : Kernel R) k mean f cholesky solve_l solve_u,
  cholesky_sound cholesky -> triangular_sound lower_triangular solve_l -> triangular_sound upper_triangular solve_u -> mean_is mean f ->
  forall q X y (s1 s1' s2 s2' : GaussianProcess R), (0 < q)%nat -> mwf X -> kernel_is (mcols X) ker k -> gp_noise s2 = INR q * gp_noise s1 ->
  gp_train ker mean cholesky solve_l solve_u s1 X y = (s1', Ok tt) ->
  gp_train ker mean cholesky solve_l solve_u s2 (copied q X) (times q y) = (s2', Ok tt) ->
  forall Xs, mwf Xs -> mcols Xs = mcols X -> gp_predict ker mean s2' Xs = gp_predict ker mean s1' Xs.
Proof. exact gp_copies_predict. Qed.
Print Assumptions C186_predict.

(** C186: ... and the same posterior mean and covariance. *)
Theorem C186_posterior : forall (ker : Kernel R) k mean f cholesky solve_l solve_u,
  cholesky_sound cholesky -> triangular_sound lower_triangular solve_l -> triangular_sound upper_triangular solve_u -> mean_is mean f ->
  forall q X y (s1 s1' s2 s2' : GaussianProcess R), (0 < q)%nat -> mwf X -> kernel_is (mcols X) ker k -> gp_noise s2 = INR q * gp_noise s1 ->
  gp_train ker mean cholesky solve_l solve_u s1 X y = (s1', Ok tt) ->
  gp_train ker mean cholesky solve_l solve_u s2 (copied q X) (times q y) = (s2', Ok tt) ->
  forall Xs o1 V1 o2 V2, mwf Xs -> mcols Xs = mcols X ->
  gp_get_posterior ker mean solve_l s1' Xs = Ok (o1, V1) -> gp_get_posterior ker mean solve_l s2' Xs = Ok (o2, V2) -> o2 = o1 /\ V2 = V1.
Proof. exact gp_copies_posterior. Qed.
Print Assumptions C186_posterior.
Example C186_ex : mean_is (const_mean 1) (fun _ => 1) /\ gp_noise (gp_new (/ 5)) = INR 2 * gp_noise (gp_new (/ 10)) /\ exists m1 m2,
  gp_train (k_squared_exp 1 1) (const_mean 1) cholesky_any solve_any solve_any (gp_new (/ 10)) Line [9; 4; 1] = (m1, Ok tt) /\
  gp_train (k_squared_exp 1 1) (const_mean 1) cholesky_any solve_any solve_any (gp_new (/ 5)) (copied 2 Line) (times 2 [9; 4; 1]) = (m2, Ok tt).
Proof. exact (conj (const_mean_is 1) (conj copies_noise copies_trained)). Qed.
Example C186_posterior_ex : forall m1, gp_train (k_squared_exp 1 1) (const_mean 1) cholesky_any solve_any solve_any (gp_new (/ 10)) Line [9; 4; 1] = (m1, Ok tt) ->
  exists out V, gp_get_posterior (k_squared_exp 1 1) (const_mean 1) solve_any m1 Line = Ok (out, V).
Proof. exact copies_posterior. Qed.
