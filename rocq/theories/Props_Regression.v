(** * C38, C39, C40, C74, C75, C96: linear and logistic regression
    ([src/learning/lin_reg.rs], [src/learning/logistic_reg.rs]) *)
From Coq Require Import List Arith Lia Bool Reals Lra.
From Verif Require Import Base Num NumFn Linalg Spec_Calc Model_Toolkit Model_Optim Model_Regression Spec_Regression
  Proof_Regression Proof_Regression2 Proof_RegressionEx Proof_Converge2 Proof_Gaps.
Import ListNotations.
Local Open Scope R_scope.

(** C38. *)
Theorem C38_train_is_least_squares : forall solve (self : LinRegressor R) X y self', solver_sound solve -> mwf X ->
  lr_train solve self X y = (self', Ok tt) -> length y = nrows X /\
  exists p, lr_parameters self' = Some p /\ length p = S (mcols X) /\ forall q, length q = S (mcols X) -> rss X y p <= rss X y q.
Proof. exact lr_train_ls. Qed.
Print Assumptions C38_train_is_least_squares.
Theorem C38_predict_is_affine : forall (self : LinRegressor R) p X, lr_parameters self = Some p -> mwf X ->
  lr_predict self X = if (length p =? S (mcols X))%nat then Ok (map (affine p) (mrows X)) else Panic.
Proof. exact lr_predict_affine. Qed.
Print Assumptions C38_predict_is_affine.
Theorem C38_failed_train_keeps_model : forall (F : Type) (N : Num F) solve (self : LinRegressor F) X y self' r,
  lr_train solve self X y = (self', r) -> r <> Ok tt -> self' = self.
Proof. exact @lr_train_err. Qed.
Print Assumptions C38_failed_train_keeps_model.
Theorem C38_target_count : forall (F : Type) (N : Num F) solve (self : LinRegressor F) X y, length y <> nrows X -> lr_train solve self X y = (self, Panic).
Proof. exact @lr_target_count. Qed.
Print Assumptions C38_target_count.
Example C38_ex : solver_sound cramer2 /\
  exists self', lr_train cramer2 lr_default (Mat [[2]; [3]; [4]] 1) [5; 6; 7] = (self', Ok tt) /\ lr_parameters self' = Some [3; 1].
Proof. exact (conj cramer2_sound lr_train_ex). Qed.

(** C39. *)
Theorem C39_lin_reg_gradient : forall X y p j, mwf X -> length y = nrows X -> length p = mcols X -> (0 < nrows X)%nat -> (j < mcols X)%nat ->
  exists c g, lr_compute_grad X y p = Ok (c, g) /\ length g = length p /\
    has_partial_vec (fun q => cost_of (lr_compute_grad X y q)) p j (nth j g 0).
Proof. exact lr_grad. Qed.
Print Assumptions C39_lin_reg_gradient.
Theorem C39_logistic_gradient : forall X y p j, mwf X -> length y = nrows X -> length p = mcols X -> (0 < nrows X)%nat -> (j < mcols X)%nat ->
  exists c g, log_compute_grad X y p = Ok (c, g) /\ length g = length p /\
    has_partial_vec (fun q => cost_of (log_compute_grad X y q)) p j (nth j g 0).
Proof. exact log_grad. Qed.
Print Assumptions C39_logistic_gradient.
Example C39_ex : let X := Mat [[1; 2]; [1; 3]] 2 in mwf X /\ length [5; 6] = nrows X /\ length [1; 1] = mcols X /\ (0 < nrows X)%nat /\ (1 < mcols X)%nat.
Proof. cbn. repeat split; try lia. repeat constructor. Qed.

(** C40. *)
Theorem C40_predictions_are_probabilities : forall (self : LogisticRegressor R) p X, log_parameters self = Some p -> mwf X -> length p = S (mcols X) ->
  exists out, log_predict self X = Ok out /\ length out = nrows X /\
    (forall i, (i < nrows X)%nat -> 0 < nth i out 0 < 1) /\
    (forall i k, (i < nrows X)%nat -> (k < nrows X)%nat ->
       affine p (nth i (mrows X) []) < affine p (nth k (mrows X) []) -> nth i out 0 < nth k out 0).
Proof. exact log_predict_prob. Qed.
Print Assumptions C40_predictions_are_probabilities.
Theorem C40_untrained : forall (F : Type) (N : Num F) (NF : NumFn F) X, log_predict (F := F) log_new X = Err UntrainedModel.
Proof. exact (fun F N NF X => eq_refl). Qed.
Print Assumptions C40_untrained.
Example C40_ex : let self := {| log_parameters := Some [0; 1] |} in let X := Mat [[1]; [2]] 1 in
  log_parameters self = Some [0; 1] /\ mwf X /\ length [0; 1] = S (mcols X) /\ affine [0; 1] [1] < affine [0; 1] [2].
Proof. cbn. repeat split; auto. - repeat constructor. - unfold affine. cbn. lra. Qed.

(** C74 fails: with the fixed step 0.3 the iteration diverges on badly scaled data; one sample
    (10, 1) suffices. *)
Theorem C74_refuted_diverges : exists self' p, lr_train_with_optimization lr_default (Mat [[10]] 1) [1] = (self', Ok tt) /\
  lr_parameters self' = Some p /\ rss (Mat [[10]] 1) [1] [0; 0] = 1 /\ 29 ^ 200 <= rss (Mat [[10]] 1) [1] p.
Proof. exact lr_gd_diverges. Qed.
Print Assumptions C74_refuted_diverges.
(** C75: what holds, for data whose [X'X/rows] has largest eigenvalue at most 10/3. *)
Theorem C75_scaled_data : forall (self : LinRegressor R) X y self' L, mwf X -> (0 < nrows X)%nat -> length y = nrows X ->
  (forall v, length v = S (mcols X) -> dot (mat_vec (with_ones X) v) (mat_vec (with_ones X) v) <= L * INR (nrows X) * dot v v) ->
  3 / 10 * L <= 1 -> lr_train_with_optimization self X y = (self', Ok tt) ->
  exists p, lr_parameters self' = Some p /\ length p = S (mcols X) /\ rss X y p <= rss X y (repeat 0 (S (mcols X))).
Proof. exact lr_gd_no_worse. Qed.
Print Assumptions C75_scaled_data.
Example C75_ex : 3 / 10 * 2 <= 1 /\ forall v, length v = 2%nat ->
  dot (mat_vec (with_ones (Mat [[1]] 1)) v) (mat_vec (with_ones (Mat [[1]] 1)) v) <= 2 * INR 1 * dot v v.
Proof. split; [lra|]. exact scaled_ex. Qed.

(** C96: gradient-descent training of both regressors comes close to the best parameters. *)
Theorem C96_logistic_rate : forall gd (self : LogisticRegressor R) X y L, mwf X -> (0 < nrows X)%nat -> length y = nrows X ->
  (forall x, In x (mrows X) -> 1 + sqnorm x <= L) -> 0 < gd_alpha gd -> gd_alpha gd * L <= 4 ->
  exists self' p, log_train (gd_optimize gd) self X y = (self', Ok tt) /\ log_parameters self' = Some p /\ length p = S (mcols X) /\
    log_loss X y p <= log_loss X y (repeat (1 / 2) (S (mcols X))) /\
    forall q, length q = S (mcols X) ->
      let D := sumR (S (mcols X)) (fun k => (1 / 2 - nth k q 0) ^ 2) in
      2 * gd_alpha gd * INR (gd_iters gd) * (log_loss X y p - log_loss X y q) <= D \/
      log_loss X y p - log_loss X y q <= sqrt (2 * / 10 ^ 20 / gd_alpha gd) * sqrt D \/
      log_loss X y p < / 10 ^ 20.
Proof. exact log_gd_rate. Qed.
Print Assumptions C96_logistic_rate.
Theorem C96_linear_rate : forall (self : LinRegressor R) X y L, mwf X -> (0 < nrows X)%nat -> length y = nrows X ->
  (forall x, In x (mrows X) -> 1 + sqnorm x <= L) -> 3 / 10 * L <= 1 ->
  exists self' p, lr_train_with_optimization self X y = (self', Ok tt) /\ lr_parameters self' = Some p /\ length p = S (mcols X) /\
    forall q, length q = S (mcols X) ->
      30 * (rss X y p - rss X y q) <= INR (nrows X) * sqnorm q \/
      rss X y p - rss X y q <= 2 * INR (nrows X) * (sqrt (20 / 3 * / 10 ^ 20) * sqrt (sqnorm q)) \/
      rss X y p < 2 * INR (nrows X) * / 10 ^ 20.
Proof. exact lin_gd_rate. Qed.
Print Assumptions C96_linear_rate.
Example C96_ex : let X := Mat [[1]; [-1]; [1 / 2]] 1 in mwf X /\ (0 < nrows X)%nat /\ length [1; 0; 1] = nrows X /\
  (forall x, In x (mrows X) -> 1 + sqnorm x <= 2) /\ 0 < gd_alpha (@gd_default R NumR) /\ gd_alpha (@gd_default R NumR) * 2 <= 4 /\ 3 / 10 * 2 <= 1.
Proof. exact rate_ex. Qed.
