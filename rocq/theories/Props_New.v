(** * C116: constructors accept exactly the documented parameters *)
From Coq Require Import List Arith Bool Reals.
From Flocq Require Import Core BinarySingleNaN.
From Verif Require Import Base Num NumF Linalg Model_Optim Model_DBSCAN Model_GMM Spec_New Proof_New.
Import ListNotations.

(** C116: a constructor panics on every binary64 parameter that is not in the documented range (NaN and both zeros included)
    and otherwise stores what it was given. *)
Theorem C116_gradient_desc : forall (a : B64) n,
  (positive64 a -> gd_new a n = Ok {| gd_alpha := a; gd_iters := n |}) /\ (gd_new a n = Panic <-> ~ positive64 a).
Proof. exact gd_new_spec. Qed.
Print Assumptions C116_gradient_desc.
Theorem C116_stochastic_gd : forall (a m : B64) n,
  (positive64 a /\ positive64 m -> sgd_new a m n = Ok {| sgd_alpha := a; sgd_mu := m; sgd_iters := n |}) /\
  (sgd_new a m n = Panic <-> ~ (positive64 a /\ positive64 m)).
Proof. exact sgd_new_spec. Qed.
Print Assumptions C116_stochastic_gd.
Theorem C116_adagrad : forall (a t : B64) n,
  (positive64 a /\ nonneg64 t -> ada_new a t n = Ok {| ada_alpha := a; ada_tau := t; ada_iters := n |}) /\
  (ada_new a t n = Panic <-> ~ (positive64 a /\ nonneg64 t)).
Proof. exact ada_new_spec. Qed.
Print Assumptions C116_adagrad.
Theorem C116_rmsprop : forall (r d e : B64) n,
  (positive64 r /\ fraction64 d /\ positive64 e -> rms_new r d e n = Ok {| rms_rate := r; rms_decay := d; rms_epsilon := e; rms_iters := n |}) /\
  (rms_new r d e n = Panic <-> ~ (positive64 r /\ fraction64 d /\ positive64 e)).
Proof. exact rms_new_spec. Qed.
Print Assumptions C116_rmsprop.
Theorem C116_dbscan : forall (e : B64) n,
  (positive64 e -> exists m, dbscan_new e n = Ok m /\ db_eps m = e /\ db_min_points m = n /\ db_clusters m = None /\ db_predictive m = false /\ db_cluster_data m = None) /\
  (dbscan_new e n = Panic <-> ~ positive64 e).
Proof. exact dbscan_new_spec. Qed.
Print Assumptions C116_dbscan.
(** Mixture weights: the length and the sign are checked ... *)
Theorem C116_gmm_weights : forall (k : nat) (w : list B64),
  ((length w <> k \/ exists x, In x w /\ negative64 x) -> gmm_with_weights k w = Err InvalidParameters) /\
  (~ (length w <> k \/ exists x, In x w /\ negative64 x) -> exists m, gmm_with_weights k w = Ok m).
Proof. exact gmm_weights_spec. Qed.
Print Assumptions C116_gmm_weights.
(** ... but NaN, which is not below zero, is accepted. *)
Theorem C116_gmm_nan_accepted : exists m : GMM B64, gmm_with_weights 2 [b64_of_Z 1; B754_nan] = Ok m.
Proof. exact gmm_nan_weight. Qed.
Print Assumptions C116_gmm_nan_accepted.

Example C116_ex : positive64 (b64_dec 1 1) /\ fraction64 (b64_dec 9 1) /\ nonneg64 (b64_of_Z 0) /\ ~ positive64 (b64_of_Z 0) /\ ~ positive64 B754_nan /\ ~ fraction64 (b64_of_Z 1).
Proof. exact new_cases. Qed.
