(** * C56, C79: Gaussian processes ([src/learning/gp.rs]) *)
From Coq Require Import List Arith Lia Bool Reals Lra.
From Verif Require Import Base Num NumFn Linalg Spec_Calc Model_Kernel Spec_Kernel Proof_Kernel Model_GP Spec_GP Proof_GP Proof_GPEx Proof_GPRidgeEx Proof_GPErr.
Import ListNotations.
Local Open Scope R_scope.

(** C56: the stored coefficients are the only solution of (K + noise I) a = y - m(X). *)
Theorem C56_coefficients : forall (ker : Kernel R) k mean cholesky solve_l solve_u (self self' : GaussianProcess R) X y,
  cholesky_sound cholesky -> triangular_sound lower_triangular solve_l -> triangular_sound upper_triangular solve_u -> mwf X -> kernel_is (mcols X) ker k ->
  gp_train ker mean cholesky solve_l solve_u self X y = (self', Ok tt) ->
  length y = length (mean X) /\ exists a, gp_alpha self' = Some a /\
    solves k (gp_noise self) X a (fun i => nth i y 0 - nth i (mean X) 0) /\
    forall a', solves k (gp_noise self) X a' (fun i => nth i y 0 - nth i (mean X) 0) -> a' = a.
Proof. exact gp_alpha_solves. Qed.
Print Assumptions C56_coefficients.
Theorem C56_predict : forall (ker : Kernel R) k mean cholesky solve_l solve_u (self self' : GaussianProcess R) X y,
  cholesky_sound cholesky -> triangular_sound lower_triangular solve_l -> triangular_sound upper_triangular solve_u -> mwf X -> kernel_is (mcols X) ker k ->
  gp_train ker mean cholesky solve_l solve_u self X y = (self', Ok tt) ->
  forall Xs, mwf Xs -> mcols Xs = mcols X -> length (mean Xs) = nrows Xs ->
  exists a out, gp_alpha self' = Some a /\ gp_predict ker mean self' Xs = Ok out /\ length out = nrows Xs /\
    forall i, (i < nrows Xs)%nat -> nth i out 0 = nth i (mean Xs) 0 + against k X a (pt Xs i).
Proof. exact gp_predict_mean. Qed.
Print Assumptions C56_predict.
Theorem C56_interpolates : forall (ker : Kernel R) k mean cholesky solve_l solve_u (self self' : GaussianProcess R) X y,
  cholesky_sound cholesky -> triangular_sound lower_triangular solve_l -> triangular_sound upper_triangular solve_u -> mwf X -> kernel_is (mcols X) ker k ->
  gp_train ker mean cholesky solve_l solve_u self X y = (self', Ok tt) ->
  gp_noise self = 0 -> length (mean X) = nrows X -> gp_predict ker mean self' X = Ok y.
Proof. exact gp_interpolates. Qed.
Print Assumptions C56_interpolates.
Theorem C56_posterior : forall (ker : Kernel R) k mean cholesky solve_l solve_u (self self' : GaussianProcess R) X y,
  cholesky_sound cholesky -> triangular_sound lower_triangular solve_l -> mwf X -> kernel_is (mcols X) ker k ->
  gp_train ker mean cholesky solve_l solve_u self X y = (self', Ok tt) ->
  forall Xs out V, mwf Xs -> mcols Xs = mcols X -> gp_get_posterior ker mean solve_l self' Xs = Ok (out, V) ->
  gp_predict ker mean self' Xs = Ok out /\ mwf V /\ nrows V = nrows Xs /\ mcols V = nrows Xs /\
  (forall i j w, (i < nrows Xs)%nat -> (j < nrows Xs)%nat -> solves k (gp_noise self) X w (fun m => k (pt Xs j) (pt X m)) ->
     entry V i j = k (pt Xs i) (pt Xs j) - against k X w (pt Xs i)) /\
  (forall i, (i < nrows Xs)%nat -> entry V i i <= k (pt Xs i) (pt Xs i)) /\
  ((forall x x', length x = mcols X -> length x' = mcols X -> k x x' = k x' x) -> forall i j, (i < nrows Xs)%nat -> (j < nrows Xs)%nat -> entry V i j = entry V j i).
Proof. exact gp_posterior'. Qed.
Print Assumptions C56_posterior.
Theorem C56_width : forall (F : Type) (N : Num F) ker mean (self : GaussianProcess F) a D X, gp_alpha self = Some a -> gp_train_data self = Some D ->
  mcols X <> mcols D -> gp_predict ker mean self X = Err InvalidState.
Proof. exact @gp_predict_width. Qed.
Print Assumptions C56_width.
Example C56_ex : cholesky_sound cholesky1 /\ (forall shape, triangular_sound shape triangular1) /\ mwf GX /\ kernel_is (mcols GX) (k_squared_exp 1 1) se /\
  (exists self', gp_train (k_squared_exp 1 1) (const_mean 1) cholesky1 triangular1 triangular1 (gp_new 0) GX [9] = (self', Ok tt)) /\
  exists self', gp_train (k_squared_exp 1 1) (const_mean 1) cholesky1 triangular1 triangular1 (gp_new 3) GX [9] = (self', Ok tt) /\
  exists out V, gp_get_posterior (k_squared_exp 1 1) (const_mean 1) triangular1 self' (Mat [[0]; [5]] 1) = Ok (out, V).
Proof. exact (conj cholesky1_sound (conj triangular1_sound (conj GX_wf (conj (se_is 1) (conj gp_ex0 gp_ex))))). Qed.

(** C79: together with C56_posterior, posterior variances lie between 0 and the prior variance. *)
Theorem C79_posterior_variance : forall (ker : Kernel R) k dim s X w x, psd_kernel dim ker -> kernel_is dim ker k ->
  (forall x x', length x = dim -> length x' = dim -> k x x' = k x' x) ->
  mwf X -> mcols X = dim -> length x = dim -> 0 <= s -> solves k s X w (fun m => k x (pt X m)) -> 0 <= k x x - against k X w x.
Proof. exact posterior_variance_ge0'. Qed.
Print Assumptions C79_posterior_variance.
Theorem C79_failed_train_keeps_model : forall (F : Type) (N : Num F) ker mean ch sl su (self : GaussianProcess F) X y self' r,
  gp_train ker mean ch sl su self X y = (self', r) -> r <> Ok tt -> self' = self.
Proof. exact @gp_train_failed. Qed.
Print Assumptions C79_failed_train_keeps_model.
(** An error is reported exactly when the decomposition of K + noise I fails; the other failures panic. *)
Theorem C79_failure_is_decomposition : forall (F : Type) (N : Num F) ker mean ch sl su (self : GaussianProcess F) X y k,
  snd (gp_train ker mean ch sl su self X y) = Err k <->
  k = InvalidState /\ exists km, ker_mat ker X X = Ok km /\ ch (mzip nadd km (scaled_identity (nrows X) (gp_noise self))) = None.
Proof. exact @gp_train_err. Qed.
Print Assumptions C79_failure_is_decomposition.
Theorem C79_target_count : forall (F : Type) (N : Num F) ker mean ch sl su (self : GaussianProcess F) X y km L,
  ker_mat ker X X = Ok km -> ch (mzip nadd km (scaled_identity (nrows X) (gp_noise self))) = Some L ->
  length y <> length (mean X) -> snd (gp_train ker mean ch sl su self X y) = Panic.
Proof. exact @gp_train_target_count. Qed.
Print Assumptions C79_target_count.
Example C79_ex_failures : snd (gp_train (k_squared_exp 1 1) (const_mean 1) (fun _ => None) triangular1 triangular1 (gp_new 3) GX [9]) = Err InvalidState /\
  snd (gp_train (k_squared_exp 1 1) (const_mean 1) (fun M => Some M) (fun _ _ => Err InvalidData) triangular1 (gp_new 3) GX [9]) = Panic /\
  snd (gp_train (k_squared_exp 1 1) (const_mean 1) (fun M => Some M) triangular1 triangular1 (gp_new 3) GX [9; 8]) = Panic.
Proof. exact gp_train_err_ex. Qed.
Example C79_ex : psd_kernel 1 (k_squared_exp 1 1) /\ (forall x x', length x = 1%nat -> length x' = 1%nat -> se x x' = se x' x) /\ mwf GX /\ length [0] = mcols GX /\ 0 <= 3 /\ solves se 3 GX [se [0] [1] / 4] (fun m => se [0] (pt GX m)) /\
  snd (gp_train (k_squared_exp 1 1) (const_mean 1) (fun _ => None) triangular1 triangular1 (gp_new 3) GX [9]) <> Ok tt.
Proof. split; [apply squared_exp_psd; lra|]. split; [exact (se_sym 1)|]. split; [repeat constructor|]. split; [reflexivity|]. split; [lra|]. split; [exact solves_ex|]. discriminate. Qed.
