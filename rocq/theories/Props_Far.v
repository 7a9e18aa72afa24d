(** * Properties: Gaussian processes far from the data ([src/learning/gp.rs]) *)
From Coq Require Import List Reals.
From Verif Require Import Base Num NumFn Linalg LinalgR Spec_Calc MatR Model_Kernel Spec_Kernel Model_GP Spec_GP Spec_Succeeds Proof_GPEx Proof_Oracles Proof_SucceedsEx Spec_GPCopies Proof_GPCopiesEx Spec_Far Proof_Far Proof_FarKer.
Import ListNotations.
Local Open Scope R_scope.

(** C194: far enough from every training row the prediction is as close as wanted to the mean function. *)
Theorem C194_mean : forall (ker : Kernel R) k mean f cholesky solve_l solve_u,
  cholesky_sound cholesky -> triangular_sound lower_triangular solve_l -> triangular_sound upper_triangular solve_u -> mean_is mean f -> fades k ->
  forall X y (s s' : GaussianProcess R), mwf X -> kernel_is (mcols X) ker k -> gp_train ker mean cholesky solve_l solve_u s X y = (s', Ok tt) ->
  forall e, 0 < e -> exists d, forall Xs, mwf Xs -> mcols Xs = mcols X ->
  exists out, gp_predict ker mean s' Xs = Ok out /\ length out = nrows Xs /\
    forall i, (i < nrows Xs)%nat -> far_from X d (nth i (mrows Xs) []) -> Rabs (nth i out 0 - f (nth i (mrows Xs) [])) <= e.
Proof. exact far_mean. Qed.
Print Assumptions C194_mean.

(** C194: ... and the posterior covariance of two such queries to the kernel. *)
Theorem C194_covariance : forall (ker : Kernel R) k mean cholesky solve_l solve_u,
  cholesky_sound cholesky -> triangular_sound lower_triangular solve_l -> triangular_sound upper_triangular solve_u -> fades k ->
  forall X y (s s' : GaussianProcess R), mwf X -> kernel_is (mcols X) ker k -> gp_train ker mean cholesky solve_l solve_u s X y = (s', Ok tt) ->
  forall e, 0 < e -> exists d, forall Xs out V, mwf Xs -> mcols Xs = mcols X -> gp_get_posterior ker mean solve_l s' Xs = Ok (out, V) ->
  forall i j, (i < nrows Xs)%nat -> (j < nrows Xs)%nat -> far_from X d (nth i (mrows Xs) []) -> far_from X d (nth j (mrows Xs) []) ->
  Rabs (entry V i j - k (nth i (mrows Xs) []) (nth j (mrows Xs) [])) <= e.
Proof. exact far_covariance. Qed.
Print Assumptions C194_covariance.

(** C194: the squared exponential kernel, the default of [GaussianProcess], fades. *)
Theorem C194_kernel : forall dim l a, l <> 0 -> exists k, kernel_is dim (k_squared_exp l a) k /\ fades k.
Proof. exact squared_exp_fades_is. Qed.
Print Assumptions C194_kernel.
Example C194_ex : mean_is (const_mean 1) (fun _ => 1) /\ kernel_is (mcols Line) (k_squared_exp 1 1) se /\ mwf Line /\ far_from Line 100 [20; 20] /\
  fades se /\ exists m out V,
  gp_train (k_squared_exp 1 1) (const_mean 1) cholesky_any solve_any solve_any (gp_new (/ 10)) Line [9; 4; 1] = (m, Ok tt) /\
  gp_get_posterior (k_squared_exp 1 1) (const_mean 1) solve_any m Line = Ok (out, V).
Proof. exact (conj (const_mean_is 1) (conj (se_is _) (conj Line_wf (conj far_point far_case)))). Qed.

(** C194: so do the exponential and the rational quadratic kernel, but not the linear kernel. *)
Theorem C194_exponential : forall dim l a, l <> 0 -> exists k, kernel_is dim (k_exponential l a) k /\ fades k.
Proof. exact exponential_fades_is. Qed.
Print Assumptions C194_exponential.
Theorem C194_rational_quadratic : forall dim a l, 0 < a -> l <> 0 -> exists k, kernel_is dim (k_rational_quadratic a l) k /\ fades k.
Proof. exact rational_fades_is. Qed.
Print Assumptions C194_rational_quadratic.
Theorem C194_not_linear : forall c k, kernel_is 2 (k_linear c) k -> ~ fades k.
Proof. exact linear_not_fades. Qed.
Print Assumptions C194_not_linear.
Example C194_not_linear_ex : kernel_is 2 (k_linear 1) (fun x x' => dot x x' + 1).
Proof. exact (fun _ _ _ _ => eq_refl). Qed.
