(** Specification for models with one cluster or one component. *)
From Coq Require Import List Arith Reals.
From Verif Require Import Base Num NumFn Linalg Spec_Calc Model_GMM Spec_GMM.
Import ListNotations.
Local Open Scope R_scope.

(** The covariance of the data divided by the number of rows. *)
Definition ml_cov (X : matrix R) (a b : nat) : R :=
  sumR (nrows X) (fun i => (entry X i a - data_mean X a) * (entry X i b - data_mean X b)) / INR (nrows X).
(** The covariance entries under the three options. *)
Definition single_cov (opt : CovOption R) (X : matrix R) (a b : nat) : R :=
  match opt with
  | CovFull => ml_cov X a b
  | CovDiagonal => if (a =? b)%nat then ml_cov X a a else 0
  | CovRegularized eps => ml_cov X a b + (if (a =? b)%nat then eps / INR (nrows X) else 0)
  end.
(** The model is the one Gaussian with the mean and covariance of the data. *)
Definition single_gaussian (X : matrix R) (self : GMM R) : Prop :=
  gmm_mix_weights self = [1] /\
  exists M Cs, gmm_means self = Some M /\ gmm_covars self = Some Cs /\
    forall a, (a < mcols X)%nat -> entry M 0 a = data_mean X a /\
      forall b, (b < mcols X)%nat -> entry (nth 0 Cs (Mat [] 0)) a b = single_cov (gmm_cov_option self) X a b.
