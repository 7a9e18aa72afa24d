(** * Properties: data that agree with the model's answers ([src/learning/lin_reg.rs], [logistic_reg.rs], [glm.rs], [gp.rs], [k_means.rs]) *)
From Coq Require Import List Reals.
From Verif Require Import Base Num NumFn Linalg Model_Kernel Spec_Kernel Model_Regression Spec_Regression Model_GP Spec_GP Spec_Succeeds Spec_LSStats Spec_Overlap Proof_Oracles Proof_SucceedsEx Proof_OverlapEx
  Spec_GPCopies Proof_GPCopiesEx Spec_Agree Proof_Agree Proof_AgreeGP
  Model_GLM Spec_GLM Spec_Equiv Proof_AgreeGLM
  Model_KMeans Spec_KMeans Proof_AgreeKM.
Import ListNotations.
Local Open Scope R_scope.

(** C193: linear regression stores the same parameters with and without further rows whose targets are its own answers. *)
Theorem C193_linear : forall X Z, mwf X -> mwf Z -> mcols Z = mcols X ->
  forall solve y t p, solver_exact solve -> spans X -> length y = nrows X -> lr_predict {| lr_parameters := Some p |} Z = Ok t ->
  (learns solve X y p <-> learns solve (stacked X Z) (y ++ t) p).
Proof. exact lr_agree. Qed.
Print Assumptions C193_linear.
Example C193_linear_ex : solver_exact solve_any /\ mcols Line = mcols Tri /\ length [1; 5; 2] = nrows Tri /\
  exists p t, learns solve_any Tri [1; 5; 2] p /\ lr_predict {| lr_parameters := Some p |} Line = Ok t /\ mwf Tri /\ mwf Line /\ spans Tri.
Proof. exact (conj solve_any_exact (conj eq_refl (conj eq_refl agree_lr_case))). Qed.

(** C193: parameters of a logistic model are a best fit with such rows exactly when they are one without. *)
Theorem C193_logistic : forall X Z, mwf X -> mwf Z -> mcols Z = mcols X ->
  forall y t p, (0 < nrows X)%nat -> length y = nrows X -> length p = S (mcols X) -> log_predict {| log_parameters := Some p |} Z = Ok t ->
  (best_fit X y p <-> best_fit (stacked X Z) (y ++ t) p).
Proof. exact log_agree. Qed.
Print Assumptions C193_logistic.
Example C193_logistic_ex : exists p t, best_fit zigzag [0; 1; 0; 1] p /\ log_predict {| log_parameters := Some p |} zigzag = Ok t /\ mwf zigzag /\ (0 < nrows zigzag)%nat.
Proof. exact agree_log_case. Qed.

(** C193: a Gaussian process that is trained again with such rows answers every query as before. *)
Theorem C193_process : forall (ker : Kernel R) k mean f cholesky solve_l solve_u,
  cholesky_sound cholesky -> triangular_sound lower_triangular solve_l -> triangular_sound upper_triangular solve_u -> mean_is mean f ->
  forall X Z y t (s1 s1' s2 s2' : GaussianProcess R), mwf X -> mwf Z -> mcols Z = mcols X -> kernel_is (mcols X) ker k -> gp_noise s2 = gp_noise s1 ->
  gp_train ker mean cholesky solve_l solve_u s1 X y = (s1', Ok tt) -> gp_predict ker mean s1' Z = Ok t ->
  gp_train ker mean cholesky solve_l solve_u s2 (stacked X Z) (y ++ t) = (s2', Ok tt) ->
  forall Xs, mwf Xs -> mcols Xs = mcols X -> gp_predict ker mean s2' Xs = gp_predict ker mean s1' Xs.
Proof. exact gp_agree. Qed.
Print Assumptions C193_process.
Example C193_process_ex : mean_is (const_mean 1) (fun _ => 1) /\ exists m1 m2 t,
  gp_train (k_squared_exp 1 1) (const_mean 1) cholesky_any solve_any solve_any (gp_new (/ 10)) Line [9; 4; 1] = (m1, Ok tt) /\
  gp_predict (k_squared_exp 1 1) (const_mean 1) m1 Tri = Ok t /\
  gp_train (k_squared_exp 1 1) (const_mean 1) cholesky_any solve_any solve_any (gp_new (/ 10)) (stacked Line Tri) ([9; 4; 1] ++ t) = (m2, Ok tt).
Proof. exact (conj (const_mean_is 1) agree_gp_case). Qed.

(** C193: a generalised linear model with normal errors that is trained again with such rows answers every query the old rows determine as before. *)
Theorem C193_glm : forall X Z, mwf X -> mwf Z -> mcols Z = mcols X ->
  forall inverse y t (s s' m m' : GenLinearModel R), inverse_sound inverse ->
  glm_train inverse Normal s X y = (m, Ok tt) -> glm_predict Normal m Z = Ok t -> glm_train inverse Normal s' (stacked X Z) (y ++ t) = (m', Ok tt) ->
  forall Q, mwf Q -> mcols Q = mcols X -> Forall (determined X) (mrows Q) -> glm_predict Normal m' Q = glm_predict Normal m Q.
Proof. exact glm_agree. Qed.
Print Assumptions C193_glm.
Example C193_glm_ex : inverse_exact inverse_any /\ mwf Tri /\ mwf Line /\ mcols Line = mcols Tri /\ exists m m' t,
  glm_train inverse_any Normal glm_new Tri [1; 5; 2] = (m, Ok tt) /\ glm_predict Normal m Line = Ok t /\
  glm_train inverse_any Normal glm_new (stacked Tri Line) ([1; 5; 2] ++ t) = (m', Ok tt) /\ Forall (determined Tri) (mrows Line).
Proof. exact (conj inverse_any_exact (conj Tri_wf (conj Line_wf (conj eq_refl agree_glm_case)))). Qed.

(** C193: if every centroid of a k-means model has rows and one more iteration changes nothing, then training from its centroids with
    further rows that lie at centroids leaves the model as it is, with any number of iterations. *)
Theorem C193_kmeans : forall (tol : R) (m : KMeans R) (M Z C : matrix R) a, mwf M -> mwf Z -> mcols Z = mcols M -> (0 < km_k m <= nrows M)%nat ->
  km_centroids m = Some C -> km_predict m M = Ok a -> nonempty a (km_k m) ->
  km_train tol (Ok C) {| km_iters := 1; km_k := km_k m; km_centroids := None |} M = ({| km_iters := 1; km_k := km_k m; km_centroids := Some C |}, Ok tt) ->
  Forall (fun z => In z (mrows C)) (mrows Z) ->
  km_train tol (Ok C) m (stacked M Z) = (m, Ok tt).
Proof. exact km_agree. Qed.
Print Assumptions C193_kmeans.
Example C193_kmeans_ex : km_k settled_model = 2%nat /\ km_centroids settled_model = Some (Mat [[1]; [10]] 1) /\ mcols settled_more = mcols settled_data /\
  mwf settled_data /\ mwf settled_more /\ (0 < km_k settled_model <= nrows settled_data)%nat /\ km_predict settled_model settled_data = Ok [0; 0; 1]%nat /\ nonempty [0; 0; 1]%nat 2 /\
  (forall tol, km_train tol (Ok (Mat [[1]; [10]] 1)) {| km_iters := 1; km_k := 2; km_centroids := None |} settled_data = ({| km_iters := 1; km_k := 2; km_centroids := Some (Mat [[1]; [10]] 1) |}, Ok tt)) /\
  Forall (fun z => In z [[1]; [10]]) (mrows settled_more).
Proof. exact (conj eq_refl (conj eq_refl (conj eq_refl settled_case))). Qed.
