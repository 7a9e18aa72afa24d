(** * C41, C42, C43, C76, C77: generalised linear models ([src/learning/glm.rs]) *)
From Coq Require Import List Arith Lia Bool Reals Lra.
From Verif Require Import Base Num NumFn Linalg Model_Regression Spec_Regression Model_GLM Spec_GLM Proof_GLM Proof_GLM2 Proof_GLMEx Proof_GLMClip.
Import ListNotations.
Local Open Scope R_scope.

(** C41. *)
Theorem C41_logit : forall x : R, (0 < x < 1 -> lk_inv Logit (lk_func Logit x) = x /\ derivable_pt_lim (lk_func Logit) x (lk_grad Logit x)) /\
  0 < lk_inv Logit x < 1 /\ lk_func Logit (lk_inv Logit x) = x.
Proof. exact (fun x => conj (fun H => conj (logit_inv_l x H) (logit_deriv x H)) (conj (logit_inv_range x) (logit_inv_r x))). Qed.
Print Assumptions C41_logit.
Theorem C41_log : forall x : R, (0 < x -> lk_inv Log (lk_func Log x) = x /\ derivable_pt_lim (lk_func Log) x (lk_grad Log x)) /\
  0 < lk_inv Log x /\ lk_func Log (lk_inv Log x) = x.
Proof. exact (fun x => conj (fun H => conj (exp_ln x H) (log_deriv x H)) (conj (exp_pos x) (ln_exp x))). Qed.
Print Assumptions C41_log.
Theorem C41_identity : forall x : R, lk_inv Identity (lk_func Identity x) = x /\ derivable_pt_lim (lk_func Identity) x (lk_grad Identity x).
Proof. exact (fun x => conj eq_refl (identity_deriv x)). Qed.
Print Assumptions C41_identity.
Theorem C41_predict : forall cr (self : GenLinearModel R) p X, glm_parameters self = Some p -> mwf X ->
  glm_predict cr self X = if (length p =? S (mcols X))%nat then Ok (map (fun x => lk_inv (cr_link cr) (affine p x)) (mrows X)) else Panic.
Proof. exact predict_eq. Qed.
Print Assumptions C41_predict.
Theorem C41_bernoulli_means : forall (self : GenLinearModel R) p X out, glm_parameters self = Some p -> glm_predict Bernoulli self X = Ok out ->
  length out = nrows X /\ Forall (fun m => 0 < m < 1) out.
Proof. exact (fun self p X out => predict_means Bernoulli (fun m => 0 < m < 1) self p X out logit_inv_range). Qed.
Print Assumptions C41_bernoulli_means.
Theorem C41_poisson_means : forall (self : GenLinearModel R) p X out, glm_parameters self = Some p -> glm_predict Poisson self X = Ok out ->
  length out = nrows X /\ Forall (fun m => 0 < m) out.
Proof. exact (fun self p X out => predict_means Poisson (fun m => 0 < m) self p X out exp_pos). Qed.
Print Assumptions C41_poisson_means.
Example C41_ex : let self := {| glm_parameters := Some [0; 1] |} in
  0 < 1 / 3 < 1 /\ mwf X01 /\ exists out, glm_predict Bernoulli self X01 = Ok out /\ glm_predict Poisson self X01 <> Panic.
Proof. split; [lra|]. split; [repeat constructor|]. eexists. split; [reflexivity|discriminate]. Qed.

(** C42. *)
Theorem C42_normal_is_least_squares : forall inverse (self : GenLinearModel R) X y self', inverse_sound inverse -> mwf X ->
  glm_train inverse Normal self X y = (self', Ok tt) -> length y = nrows X /\
  exists p, glm_parameters self' = Some p /\ length p = S (mcols X) /\ forall q, length q = S (mcols X) -> rss X y p <= rss X y q.
Proof. exact glm_normal_ls. Qed.
Print Assumptions C42_normal_is_least_squares.
Example C42_ex : inverse_sound inverse2 /\ exists self', glm_train inverse2 Normal glm_new X01 [1; 3] = (self', Ok tt).
Proof. exact (conj inverse2_sound normal_ex). Qed.

(** C43: a state (mu, z) which a pass of the loop reproduces. *)
Theorem C43_normal_fixed_point : forall inverse X y mu z b, inverse_sound inverse -> mwf X ->
  length y = nrows X -> length mu = nrows X -> length z = nrows X ->
  glm_pass inverse Normal (with_ones X) y mu z = Ok (b, mu, z) -> is_mle normal_cumulant X y b.
Proof. exact fixed_normal. Qed.
Print Assumptions C43_normal_fixed_point.
Theorem C43_poisson_fixed_point : forall inverse X y mu z b, inverse_sound inverse -> mwf X ->
  length y = nrows X -> length mu = nrows X -> length z = nrows X ->
  glm_pass inverse Poisson (with_ones X) y mu z = Ok (b, mu, z) -> is_mle poisson_cumulant X y b.
Proof. exact fixed_poisson. Qed.
Print Assumptions C43_poisson_fixed_point.
(** Missing: means so near 0 or 1 that the code replaces the weight by 1e-5, or residuals it
    rounds to 0; there the equations solved are not those of the likelihood. *)
Theorem C43_bernoulli_fixed_point_partial : forall inverse X y mu z b, inverse_sound inverse -> mwf X ->
  length y = nrows X -> length mu = nrows X -> length z = nrows X ->
  (forall i, (i < nrows X)%nat -> 1 / 10 ^ 5 <= nth i mu 0 * (1 - nth i mu 0) /\
     (nth i y 0 = nth i mu 0 \/ 1 / 10 ^ 15 <= Rabs (nth i y 0 - nth i mu 0))) ->
  glm_pass inverse Bernoulli (with_ones X) y mu z = Ok (b, mu, z) -> is_mle bernoulli_cumulant X y b.
Proof. exact fixed_bernoulli. Qed.
Print Assumptions C43_bernoulli_fixed_point_partial.
(** There the claim is false: a fixed point, with all targets strictly between 0 and 1, that is not a maximum-likelihood
    estimate (the mean at x = 2 is below 1e-5, so its weight is replaced). *)
Theorem C43_refuted_bernoulli_clipping : exists X y mu z b, mwf X /\ length y = nrows X /\ length mu = nrows X /\ length z = nrows X /\
  (forall i, (i < nrows X)%nat -> 0 < nth i y 0 < 1) /\
  glm_pass inverse2 Bernoulli (with_ones X) y mu z = Ok (b, mu, z) /\ ~ is_mle bernoulli_cumulant X y b.
Proof. exact bernoulli_clipped. Qed.
Print Assumptions C43_refuted_bernoulli_clipping.
Example C43_ex : inverse_sound inverse2 /\ mwf X0011 /\
  glm_pass inverse2 Normal (with_ones X0011) [-1; 1; -1; 1] [0; 0; 0; 0] [-1; 1; -1; 1] = Ok ([0; 0], [0; 0; 0; 0], [-1; 1; -1; 1]) /\
  glm_pass inverse2 Poisson (with_ones X0011) [0; 2; 0; 2] [1; 1; 1; 1] [-1; 1; -1; 1] = Ok ([0; 0], [1; 1; 1; 1], [-1; 1; -1; 1]) /\
  glm_pass inverse2 Bernoulli (with_ones X0011) [0; 1; 0; 1] [1/2; 1/2; 1/2; 1/2] [-2; 2; -2; 2] = Ok ([0; 0], [1/2; 1/2; 1/2; 1/2], [-2; 2; -2; 2]).
Proof. split; [exact inverse2_sound|]. split; [repeat constructor|]. exact (conj fixed_ex_normal (conj fixed_ex_poisson fixed_ex_bernoulli)). Qed.
(** C43 fails for the convergence test of the code: it compares successive parameters only, and
    the working response of the first pass carries no correction, so a Poisson fit stops at once. *)
Theorem C43_refuted_poisson_stops : exists self', glm_train inverse2 Poisson glm_new X01 [1; 3] = (self', Ok tt) /\
  exists p, glm_parameters self' = Some p /\ ~ is_mle poisson_cumulant X01 [1; 3] p.
Proof. exact poisson_refuted. Qed.
Print Assumptions C43_refuted_poisson_stops.

(** C76. *)
Theorem C76_poisson_is_weighted_least_squares : forall inverse (self : GenLinearModel R) X y self', inverse_sound inverse -> mwf X ->
  (forall i, (i < length y)%nat -> 1 / 10 ^ 10 <= nth i y 0) -> glm_train inverse Poisson self X y = (self', Ok tt) ->
  length y = nrows X /\
  exists p, glm_parameters self' = Some p /\ length p = S (mcols X) /\ forall q, length q = S (mcols X) -> wrss y X y p <= wrss y X y q.
Proof. exact glm_poisson_wls. Qed.
Print Assumptions C76_poisson_is_weighted_least_squares.
Example C76_ex : exists self', glm_train inverse2 Poisson glm_new X01 [1; 3] = (self', Ok tt) /\ glm_parameters self' = Some [1; 2].
Proof. exact (poisson_ex glm_new). Qed.

(** C77. *)
Theorem C77_sizes_checked : forall (F : Type) (N : Num F) (NF : NumFn F) inverse cr (self : GenLinearModel F) X y,
  nrows X <> length y -> glm_train inverse cr self X y = (self, Err InvalidData).
Proof. exact @glm_train_size. Qed.
Print Assumptions C77_sizes_checked.
Theorem C77_failed_train_keeps_model : forall (F : Type) (N : Num F) (NF : NumFn F) inverse cr (self : GenLinearModel F) X y self' r,
  glm_train inverse cr self X y = (self', r) -> r <> Ok tt -> self' = self.
Proof. exact @glm_train_failed. Qed.
Print Assumptions C77_failed_train_keeps_model.
Theorem C77_singular_panics : forall (F : Type) (N : Num F) (NF : NumFn F) inverse (cr : Criterion F) self X y w,
  nrows X = length y -> cr_working_weight cr (cr_initialize_mu cr y) = Ok w ->
  inverse (mat_mul (mat_mul (transpose (with_ones X)) (from_diag w)) (with_ones X)) = None -> glm_train inverse cr self X y = (self, Panic).
Proof. exact @glm_train_singular. Qed.
Print Assumptions C77_singular_panics.
Example C77_ex : nrows X01 <> length [1] /\ nrows X01 = length [1; 3] /\ cr_working_weight Poisson (cr_initialize_mu Poisson [1; 3]) = Ok (cr_initialize_mu Poisson [1; 3]) /\
  snd (glm_train (fun _ => None) Poisson glm_new X01 [1; 3]) <> Ok tt.
Proof. cbn [nrows X01 mrows length]. repeat split; try discriminate. Qed.
Example C77_singular_ex : glm_train inverse2 Normal glm_new (Mat [[1]; [1]] 1) [1; 3] = (glm_new, Panic).
Proof. exact constant_column_panics. Qed.
