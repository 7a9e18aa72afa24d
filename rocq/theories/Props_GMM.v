(** * C59, C87, C88, C97: Gaussian mixture models ([src/learning/gmm.rs]) *)
From Coq Require Import List Arith Lia Bool Reals Lra.
From Verif Require Import Base Num NumX NumFn Linalg Spec_Calc Model_GMM Spec_GMM Proof_GMM Proof_GMM2 Proof_GMM3 Proof_GMM4 Proof_GMM5 Proof_GMMEx Proof_EM2.
Import ListNotations.
Local Open Scope R_scope.

(** C59: construction. *)
Theorem C59_with_weights_errors : forall k (w : list R),
  (length w <> k \/ exists j, (j < length w)%nat /\ nth j w 0 < 0) <-> gmm_with_weights k w = Err InvalidParameters.
Proof. exact with_weights_errors. Qed.
Print Assumptions C59_with_weights_errors.
Example C59_with_weights_errors_case : gmm_with_weights 2 [1; -1] = Err InvalidParameters.
Proof. apply with_weights_errors. right. exists 1%nat. cbn. split; [lia|lra]. Qed.
Theorem C59_with_weights_normalises : forall k (w : list R), length w = k -> (forall j, (j < k)%nat -> 0 <= nth j w 0) -> 0 < sumR k (fun j => nth j w 0) ->
  exists m, gmm_with_weights k w = Ok m /\ gmm_comp_count m = k /\ gmm_means m = None /\ length (gmm_mix_weights m) = k /\
    (forall j, (j < k)%nat -> nth j (gmm_mix_weights m) 0 = nth j w 0 / sumR k (fun j => nth j w 0) /\ 0 <= nth j (gmm_mix_weights m) 0) /\
    sumR k (fun j => nth j (gmm_mix_weights m) 0) = 1 /\
    ((forall j, (j < k)%nat -> 0 < nth j w 0) -> well_started m).
Proof. exact with_weights_ok. Qed.
Print Assumptions C59_with_weights_normalises.
Example C59_with_weights_normalises_case : (forall j, (j < 2)%nat -> 0 <= nth j [1; 3] 0) /\ 0 < sumR 2 (fun j => nth j [1; 3] 0).
Proof. split; [intros [|[|j]] Hj; cbn; try lra; lia|cbn; lra]. Qed.
Theorem C59_new : forall k, k <> O -> well_started (gmm_new k).
Proof. exact new_well_started. Qed.
Print Assumptions C59_new.
(** Training, after any number of rounds and however it ends: positive weights that sum to one, symmetric
    positive semidefinite covariances; the means are data rows or average to the data's mean. *)
Theorem C59_train : forall lup, lup_sound lup -> forall (self : GMM R) X self' r, well_started self -> mwf X -> outcome (gmm_train lup self X) (Some (self', r)) ->
  (~ (1 < nrows X)%nat /\ self' = self /\ r = Err InvalidData) \/
  ((1 < nrows X)%nat /\ mixture (mcols X) self' /\ configured_like self' self /\ (initial_means X self self' \/ mean_preserved X self')).
Proof. exact train_mixture. Qed.
Print Assumptions C59_train.
Example C59_train_case : lup_sound lupR /\ well_started gmm2 /\ mwf D02 /\ exists self', outcome (gmm_train lupR gmm2 D02) (Some (self', Ok tt)).
Proof. exact (conj lupR_sound (conj gmm2_started (conj D02_wf train2))). Qed.
(** The model can be trained again. *)
Theorem C59_retrain : forall lup, lup_sound lup -> forall (self : GMM R) X self' r, well_started self -> mwf X ->
  outcome (gmm_train lup self X) (Some (self', r)) -> well_started self'.
Proof. exact train_well_started. Qed.
Print Assumptions C59_retrain.
Theorem C59_predict : forall lup, lup_sound lup -> forall d (self : GMM R) X P, gmm_comp_count self <> O -> mixture d self -> mwf X -> mcols X = d ->
  gmm_predict lup self X = Ok P ->
  mwf P /\ nrows P = nrows X /\ mcols P = gmm_comp_count self /\
  forall i, (i < nrows X)%nat -> (forall j, (j < gmm_comp_count self)%nat -> 0 < entry P i j) /\ sumR (gmm_comp_count self) (entry P i) = 1.
Proof. exact predict_distribution. Qed.
Print Assumptions C59_predict.
Example C59_predict_case : gmm_comp_count start2 <> O /\ mixture 1 start2 /\ exists P, gmm_predict lupR start2 D02 = Ok P.
Proof. exact (conj (fun H => O_S _ (eq_sym H)) (conj start2_mixture predict2)). Qed.
(** It fails for weights that are all zero, and when one weight is zero. *)
Theorem C59_refuted_zero_weights : exists m : GMM X, gmm_with_weights 2 [Fin 0; Fin 0] = Ok m /\ gmm_mix_weights m = [NaN; NaN].
Proof. exact zero_weights. Qed.
Print Assumptions C59_refuted_zero_weights.
Theorem C59_refuted_zero_weight :
  (exists m, gmm_with_weights 2 [Fin 1; Fin 0] = Ok m /\ gmm10 = gmm_set_max_iters m 1) /\
  outcome (gmm_train lup1 gmm10 X02) (Some (end10, Ok tt)) /\
  gmm_means end10 = Some (Mat [[Fin 1]; [NaN]] 1) /\ gmm_predict lup1 end10 X02 = Ok (Mat [[NaN; NaN]; [NaN; NaN]] 2).
Proof. exact (conj gmm10_made zero_weight). Qed.
Print Assumptions C59_refuted_zero_weight.

(** C87: predictions and the steps of the training loop. *)
Theorem C87_posterior : forall lup, lup_sound lup -> forall d (self : GMM R) X P, mixture d self -> mwf X -> mcols X = d -> gmm_predict lup self X = Ok P ->
  exists g, component_densities lup d self g /\
    forall i j, (i < nrows X)%nat -> (j < gmm_comp_count self)%nat -> entry P i j = bayes (gmm_comp_count self) (gmm_mix_weights self) g (entry X i) j.
Proof. exact predict_posterior. Qed.
Print Assumptions C87_posterior.
Example C87_posterior_case : lup_sound lupR /\ mixture 1 start2 /\ exists P, gmm_predict lupR start2 D02 = Ok P.
Proof. exact (conj lupR_sound (conj start2_mixture predict2)). Qed.
Theorem C87_round : forall lup, lup_sound lup -> forall m (self : GMM R) X self' r, gmm_comp_count self <> O -> eps_ok self -> mixture (mcols X) self -> mwf X ->
  (0 < nrows X)%nat -> em_loop lup (S m) self X = (self', r) -> r = Ok tt ->
  exists g W self1, component_densities lup (mcols X) self g /\
    (forall i j, (i < nrows X)%nat -> (j < gmm_comp_count self)%nat -> W i j = bayes (gmm_comp_count self) (gmm_mix_weights self) g (entry X i) j) /\
    let ll := sumR (nrows X) (fun i => ln (mixture_density (gmm_comp_count self) (gmm_mix_weights self) g (entry X i))) in
    (Rabs (ll - gmm_log_lik self) < 1 / 10 ^ 15 /\ self' = self) \/
    (~ Rabs (ll - gmm_log_lik self) < 1 / 10 ^ 15 /\ configured_like self1 self /\ gmm_log_lik self1 = ll /\ fitted X W self1 /\ em_loop lup m self1 X = (self', r)).
Proof. exact em_round. Qed.
Print Assumptions C87_round.
Example C87_round_case : gmm_comp_count start2 <> O /\ eps_ok start2 /\ mixture (mcols D02) start2 /\ exists self', em_loop lupR 1 start2 D02 = (self', Ok tt).
Proof. exact (conj (fun H => O_S _ (eq_sym H)) (conj I (conj start2_mixture loop2))). Qed.
(** The loop starts from distinct data rows with the weights of the model and the covariance of the data. *)
Theorem C87_start : forall lup (self : GMM R) X self' r, mwf X -> outcome (gmm_train lup self X) (Some (self', r)) ->
  (~ (1 < nrows X)%nat /\ self' = self /\ r = Err InvalidData) \/
  ((1 < nrows X)%nat /\ (gmm_comp_count self <= nrows X)%nat /\ exists self0, starting X self self0 /\ em_loop lup (gmm_max_iters self) self0 X = (self', r)).
Proof. exact train_start. Qed.
Print Assumptions C87_start.
Example C87_start_case : mwf D02 /\ exists self', outcome (gmm_train lupR gmm2 D02) (Some (self', Ok tt)).
Proof. exact (conj D02_wf train2). Qed.

(** C88: data on which training never succeeds. *)
Theorem C88_constant_column : forall lup, lup_sound lup -> forall (self : GMM R) X a self' r, well_started self -> mwf X -> constant_column X a ->
  gmm_cov_option self = CovFull \/ gmm_cov_option self = CovDiagonal -> (0 < gmm_max_iters self)%nat ->
  outcome (gmm_train lup self X) (Some (self', r)) -> r <> Ok tt.
Proof. exact constant_column_fails. Qed.
Print Assumptions C88_constant_column.
Example C88_constant_column_case : well_started (gmm_new 3) /\ constant_column D1c 1 /\ exists self' r, outcome (gmm_train lupR (gmm_new 3) D1c) (Some (self', r)).
Proof. exact (conj (new_well_started 3 (fun H => O_S _ (eq_sym H))) (conj const1c train1c)). Qed.
Theorem C88_few_rows : forall lup, lup_sound lup -> forall (self : GMM R) X self' r, well_started self -> mwf X -> (nrows X <= mcols X)%nat -> (0 < mcols X)%nat ->
  gmm_cov_option self = CovFull -> (0 < gmm_max_iters self)%nat -> outcome (gmm_train lup self X) (Some (self', r)) -> r <> Ok tt.
Proof. exact few_rows_fail. Qed.
Print Assumptions C88_few_rows.
Example C88_few_rows_case : well_started (gmm_new 2) /\ (nrows D23 <= mcols D23)%nat /\ exists self' r, outcome (gmm_train lupR (gmm_new 2) D23) (Some (self', r)).
Proof. exact (conj (new_well_started 2 (fun H => O_S _ (eq_sym H))) (conj (Nat.le_succ_diag_r 2) train23)). Qed.

(** C97: expectation maximisation never lowers the likelihood.  [D] is the determinant. *)
Theorem C97_round : forall lup D X, lup_sound lup -> determinant (mcols X) D -> lup_det (mcols X) D lup ->
  forall W (self self1 : GMM R) g g1, mixture (mcols X) self -> mixture (mcols X) self1 -> configured_like self1 self ->
  gmm_comp_count self <> O -> (0 < nrows X)%nat -> gmm_cov_option self = CovFull \/ gmm_cov_option self = CovDiagonal -> diagonal_if self ->
  component_densities lup (mcols X) self g -> component_densities lup (mcols X) self1 g1 ->
  (forall i j, (i < nrows X)%nat -> (j < gmm_comp_count self)%nat -> W i j = bayes (gmm_comp_count self) (gmm_mix_weights self) g (entry X i) j) ->
  fitted X W self1 -> log_likelihood X self g <= log_likelihood X self1 g1 /\ diagonal_if self1.
Proof. exact em_step. Qed.
Print Assumptions C97_round.
Theorem C97_train : forall lup D X, lup_sound lup -> determinant (mcols X) D -> lup_det (mcols X) D lup ->
  forall (self self' : GMM R) r, well_started self -> mwf X -> gmm_cov_option self = CovFull \/ gmm_cov_option self = CovDiagonal ->
  outcome (gmm_train lup self X) (Some (self', r)) -> (1 < nrows X)%nat ->
  exists self0, starting X self self0 /\ em_loop lup (gmm_max_iters self) self0 X = (self', r) /\
    forall g0 g', component_densities lup (mcols X) self0 g0 -> component_densities lup (mcols X) self' g' -> log_likelihood X self0 g0 <= log_likelihood X self' g'.
Proof. exact train_likelihood. Qed.
Print Assumptions C97_train.
Example C97_case : lup_sound lupR /\ determinant (mcols D02) (fun A => A 0%nat 0%nat) /\ lup_det (mcols D02) (fun A => A 0%nat 0%nat) lupR /\
  well_started gmm2 /\ mwf D02 /\ gmm_cov_option gmm2 = CovFull /\ (1 < nrows D02)%nat /\ exists self', outcome (gmm_train lupR gmm2 D02) (Some (self', Ok tt)).
Proof. exact (conj lupR_sound (conj determinant1 (conj lupR_det (conj gmm2_started (conj D02_wf (conj eq_refl (conj (le_n 2) train2))))))). Qed.
Example C97_determinant_case : determinant 2 (fun A => A 0%nat 0%nat * A 1%nat 1%nat - A 0%nat 1%nat * A 1%nat 0%nat).
Proof. exact determinant2. Qed.
