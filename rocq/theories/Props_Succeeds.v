(** * C143-C146: when training succeeds *)
From Coq Require Import List Arith Reals Lra Lia Bool.
From Verif Require Import Base Num NumFn Linalg Spec_Calc Model_Rand Model_Regression Spec_Regression Model_GLM Spec_GLM Model_Kernel Spec_Kernel Proof_Kernel Model_GP Spec_GP Model_GMM Spec_GMM
  Spec_Succeeds Proof_Det Proof_Oracles Proof_Succeeds Proof_Succeeds2 Proof_GPEx Proof_SucceedsEx.
Import ListNotations.
Local Open Scope R_scope.

(** C143: least squares trains exactly when there are as many targets as rows and only the zero affine
    function vanishes on all rows. *)
Theorem C143_least_squares_trains : forall solve (self : LinRegressor R) X y, solver_exact solve -> mwf X ->
  (snd (lr_train solve self X y) = Ok tt <-> length y = nrows X /\ spans X).
Proof. exact lr_succeeds. Qed.
Print Assumptions C143_least_squares_trains.
Example C143_ex : solver_exact solve_any /\ mwf Tri /\ spans Tri /\ mwf Line /\ ~ spans Line /\
  (exists m, lr_train solve_any lr_default Tri [1; 5; 2] = (m, Ok tt)) /\ snd (lr_train solve_any lr_default Line [1; 5; 2]) <> Ok tt.
Proof. exact (conj solve_any_exact (conj Tri_wf (conj Tri_spans (conj Line_wf (conj Line_spans lr_ex))))). Qed.

(** C144: with positive noise and a positive semidefinite kernel a Gaussian process can be trained on every data set. *)
Theorem C144_gp_trains : forall (ker : Kernel R) k mean cholesky solve_l solve_u (self : GaussianProcess R) X y,
  cholesky_exact cholesky -> triangular_exact lower_triangular solve_l -> triangular_exact upper_triangular solve_u -> mwf X ->
  kernel_is (mcols X) ker k -> psd_kernel (mcols X) ker -> symmetric ker -> 0 < gp_noise self -> length y = nrows X -> length (mean X) = nrows X ->
  snd (gp_train ker mean cholesky solve_l solve_u self X y) = Ok tt.
Proof. exact gp_succeeds. Qed.
Print Assumptions C144_gp_trains.
Example C144_ex : cholesky_exact cholesky_any /\ (forall shape, triangular_exact shape solve_any) /\ mwf Line /\ kernel_is (mcols Line) (k_squared_exp 1 1) se /\
  psd_kernel (mcols Line) (k_squared_exp 1 1) /\ symmetric (k_squared_exp (F := R) 1 1) /\
  exists m, gp_train (k_squared_exp 1 1) (const_mean 1) cholesky_any solve_any solve_any (gp_new (/ 10)) Line [9; 4; 1] = (m, Ok tt).
Proof.
  exact (conj cholesky_any_exact (conj triangular_any_exact (conj Line_wf (conj (se_is _) (conj (squared_exp_psd _ 1 1 ltac:(lra) ltac:(lra)) (conj (squared_exp_sym 1 1) gp_trains_ex)))))).
Qed.

(** C145: a mixture trains exactly when there are two rows or more and the data vary in all directions the
    covariance option keeps; then it can also predict.  Training panics exactly when there are fewer rows than components. *)
Theorem C145_gmm_trains : forall lup, lup_exact lup -> forall (self : GMM R) X, well_started self -> mwf X -> (0 < gmm_max_iters self)%nat ->
  (forall self' r, outcome (gmm_train lup self X) (Some (self', r)) ->
    (r = Ok tt <-> (1 < nrows X)%nat /\ varies (gmm_cov_option self) X) /\
    (r = Ok tt -> forall Q, mwf Q -> mcols Q = mcols X -> exists P, gmm_predict lup self' Q = Ok P)) /\
  (outcome (gmm_train lup self X) None <-> (1 < nrows X < gmm_comp_count self)%nat).
Proof. exact gmm_succeeds. Qed.
Print Assumptions C145_gmm_trains.
Example C145_ex : lup_exact lup_any /\ well_started gmm_full /\ mwf Tri /\ varies (gmm_cov_option gmm_full) Tri /\ ~ varies (gmm_cov_option gmm_full) Line /\
  (exists m, outcome (gmm_train lup_any gmm_full Tri) (Some (m, Ok tt))) /\ (exists m r, outcome (gmm_train lup_any gmm_full Line) (Some (m, r)) /\ r <> Ok tt).
Proof. exact (conj lup_any_exact (conj gmm_full_started (conj Tri_wf (conj Tri_spans (conj Line_spans gmm_ex))))). Qed.
(** A decomposition that succeeds on every positive definite matrix and returns its determinant exists in every size. *)
Theorem C145_exact_decomposition_exists : exists lup (D : nat -> (nat -> nat -> R) -> R), lup_exact lup /\ forall d, determinant d (D d) /\ lup_det d (D d) lup.
Proof. exact exact_lup_exists. Qed.
Print Assumptions C145_exact_decomposition_exists.

(** C146: a generalised linear model of one of the four families trains exactly when the sizes fit and only the
    zero affine function vanishes on all rows; otherwise, with fitting sizes, it panics. *)
Theorem C146_glm_trains : forall inverse cr (self : GenLinearModel R) X y, inverse_exact inverse -> mwf X -> crate_family (nrows X) cr ->
  (snd (glm_train inverse cr self X y) = Ok tt <-> nrows X = length y /\ spans X) /\
  (nrows X = length y -> ~ spans X -> snd (glm_train inverse cr self X y) = Panic).
Proof. exact glm_succeeds. Qed.
Print Assumptions C146_glm_trains.
Example C146_ex : inverse_exact inverse_any /\ crate_family (nrows Tri) Bernoulli /\ crate_family (nrows Tri) (Binomial [2; 5; 1; 7]) /\
  (exists m, glm_train inverse_any Bernoulli glm_new Tri [1; 0; 1] = (m, Ok tt)) /\ snd (glm_train inverse_any Bernoulli glm_new Line [1; 0; 1]) = Panic.
Proof. exact (conj inverse_any_exact (conj (cf_bernoulli _) (conj binomial_ex glm_ex))). Qed.
