(** Specification for Gaussian mixture models. *)
From Coq Require Import List Arith Reals.
From Verif Require Import Base Num NumFn Linalg Spec_Calc Model_GMM.
Import ListNotations.
Local Open Scope R_scope.

(** [k] positive numbers that sum to one. *)
Definition positive_distribution (k : nat) (w : list R) : Prop :=
  length w = k /\ (forall j, (j < k)%nat -> 0 < nth j w 0) /\ sumR k (fun j => nth j w 0) = 1.
(** Square, symmetric, positive semidefinite. *)
Definition covariance (d : nat) (C : matrix R) : Prop :=
  mwf C /\ nrows C = d /\ mcols C = d /\ (forall a b, (a < d)%nat -> (b < d)%nat -> entry C a b = entry C b a) /\
  forall u, 0 <= sumR d (fun a => sumR d (fun b => u a * entry C a b * u b)).
(** What is assumed of the LU decomposition: the returned inverse is one, and the returned
    determinant of a positive semidefinite matrix that has an inverse is positive. *)
Definition lup_sound (lup : matrix R -> res (R * matrix R)) : Prop :=
  forall C d det Ci, covariance d C -> lup C = Ok (det, Ci) ->
    0 < det /\ mwf Ci /\ nrows Ci = d /\ mcols Ci = d /\
    forall a b, (a < d)%nat -> (b < d)%nat -> sumR d (fun k => entry C a k * entry Ci k b) = if (a =? b)%nat then 1 else 0.
(** The ways to make a model whose weights are positive. *)
Definition well_started (self : GMM R) : Prop :=
  gmm_comp_count self <> O /\ positive_distribution (gmm_comp_count self) (gmm_mix_weights self) /\
  match gmm_cov_option self with CovRegularized eps => 0 <= eps | _ => True end.
(** A trained model for points of dimension [d]. *)
Definition mixture (d : nat) (self : GMM R) : Prop :=
  positive_distribution (gmm_comp_count self) (gmm_mix_weights self) /\
  (exists M, gmm_means self = Some M /\ mwf M /\ nrows M = gmm_comp_count self /\ mcols M = d) /\
  (exists Cs, gmm_covars self = Some Cs /\ length Cs = gmm_comp_count self /\ Forall (covariance d) Cs).
(** (x - mu)^T Ci (x - mu). *)
Definition quad (d : nat) (Ci : matrix R) (x mu : nat -> R) : R :=
  sumR d (fun b => sumR d (fun a => (x a - mu a) * entry Ci a b) * (x b - mu b)).
(** The Gaussian density without its factor (2 pi)^(-d/2). *)
Definition gauss (d : nat) (det : R) (Ci : matrix R) (x mu : nat -> R) : R := exp (- (1 / 2) * quad d Ci x mu) / sqrt det.

(** Weighted sums over the rows of the data [X], with weights [W i j] for row [i] and component [j]. *)
Definition wsum (n : nat) (W : nat -> nat -> R) (j : nat) : R := sumR n (fun i => W i j).
Definition wmean (n : nat) (W : nat -> nat -> R) (X : nat -> nat -> R) (j a : nat) : R :=
  sumR n (fun i => W i j * X i a) / wsum n W j.
Definition wcov (n : nat) (W : nat -> nat -> R) (X : nat -> nat -> R) (j a b : nat) : R :=
  sumR n (fun i => W i j * ((X i a - wmean n W X j a) * (X i b - wmean n W X j b))) / wsum n W j.

(** The component means average, with the mixture weights, to the mean of the data. *)
Definition mean_preserved (X : matrix R) (self : GMM R) : Prop :=
  exists M, gmm_means self = Some M /\ forall a, (a < mcols X)%nat ->
    sumR (gmm_comp_count self) (fun j => nth j (gmm_mix_weights self) 0 * entry M j a) = sumR (nrows X) (fun i => entry X i a) / INR (nrows X).
(** The initial parameters: rows of the data, and the weights the model had. *)
Definition initial_means (X : matrix R) (old self : GMM R) : Prop :=
  gmm_mix_weights self = gmm_mix_weights old /\
  exists M rows, gmm_means self = Some M /\ NoDup rows /\ Forall (fun i => (i < nrows X)%nat) rows /\
    mrows M = map (fun i => nth i (mrows X) []) rows.
Definition configured_like {F} (self old : GMM F) : Prop :=
  gmm_comp_count self = gmm_comp_count old /\ gmm_cov_option self = gmm_cov_option old /\ gmm_max_iters self = gmm_max_iters old.
(** A column in which all rows agree. *)
Definition constant_column (X : matrix R) (a : nat) : Prop := (a < mcols X)%nat /\ exists c, forall i, (i < nrows X)%nat -> entry X i a = c.

(** The covariance matrices fitted to the data under the three options. *)
Definition fitted_cov (opt : CovOption R) (n : nat) (W X : nat -> nat -> R) (j a b : nat) : R :=
  match opt with
  | CovFull => wcov n W X j a b
  | CovDiagonal => if (a =? b)%nat then wcov n W X j a a else 0
  | CovRegularized eps => wcov n W X j a b + (if (a =? b)%nat then eps / wsum n W j else 0)
  end.
(** Bayes: the density of the mixture at [x] and the probability that [x] came from component [j],
    for component densities [g]. *)
Definition mixture_density (k : nat) (w : list R) (g : nat -> (nat -> R) -> R) (x : nat -> R) : R :=
  sumR k (fun l => nth l w 0 * g l x).
Definition bayes (k : nat) (w : list R) (g : nat -> (nat -> R) -> R) (x : nat -> R) (j : nat) : R :=
  nth j w 0 * g j x / mixture_density k w g x.
(** The component densities of a model, with the determinants and inverses the decomposition returns. *)
Definition component_densities (lup : matrix R -> res (R * matrix R)) (d : nat) (self : GMM R) (g : nat -> (nat -> R) -> R) : Prop :=
  exists M Cs, gmm_means self = Some M /\ gmm_covars self = Some Cs /\
    forall j, (j < gmm_comp_count self)%nat -> exists det Ci, lup (nth j Cs (Mat [] 0)) = Ok (det, Ci) /\ forall x, g j x = gauss d det Ci x (entry M j).
(** The parameters are those fitted to the data with weights [W]. *)
Definition fitted (X : matrix R) (W : nat -> nat -> R) (self : GMM R) : Prop :=
  (forall j, (j < gmm_comp_count self)%nat -> nth j (gmm_mix_weights self) 0 = wsum (nrows X) W j / INR (nrows X)) /\
  exists M Cs, gmm_means self = Some M /\ gmm_covars self = Some Cs /\
    forall j a, (j < gmm_comp_count self)%nat -> (a < mcols X)%nat ->
      entry M j a = wmean (nrows X) W (entry X) j a /\
      forall b, (b < mcols X)%nat -> entry (nth j Cs (Mat [] 0)) a b = fitted_cov (gmm_cov_option self) (nrows X) W (entry X) j a b.

Definition eps_ok (self : GMM R) : Prop := match gmm_cov_option self with CovRegularized eps => 0 <= eps | _ => True end.
(** Column means and sample covariances of the data. *)
Definition data_mean (X : matrix R) (a : nat) : R := sumR (nrows X) (fun i => entry X i a) / INR (nrows X).
Definition data_cov (X : matrix R) (a b : nat) : R :=
  sumR (nrows X) (fun i => (entry X i a - data_mean X a) * (entry X i b - data_mean X b)) / INR (nrows X - 1).
Definition start_cov (opt : CovOption R) (X : matrix R) (a b : nat) : R :=
  match opt with
  | CovFull => data_cov X a b
  | CovRegularized eps => data_cov X a b + (if (a =? b)%nat then eps else 0)
  | CovDiagonal => (if (a =? b)%nat then data_cov X a a else 0) / sqrt (INR (nrows X - 1))
  end.
(** The model from which the training loop starts: distinct rows of the data as means, the
    covariance of the data for every component. *)
Definition starting (X : matrix R) (old self : GMM R) : Prop :=
  configured_like self old /\ gmm_mix_weights self = gmm_mix_weights old /\ gmm_log_lik self = gmm_log_lik old /\
  exists rows Cs, gmm_means self = Some (Mat (map (fun i => nth i (mrows X) []) rows) (mcols X)) /\
    length rows = gmm_comp_count self /\ NoDup rows /\ Forall (fun i => (i < nrows X)%nat) rows /\
    gmm_covars self = Some Cs /\ length Cs = gmm_comp_count self /\
    forall C, In C Cs -> forall a b, (a < mcols X)%nat -> (b < mcols X)%nat -> entry C a b = start_cov (gmm_cov_option self) X a b.

(** Product of matrices of size [d], product of numbers. *)
Definition mprod (d : nat) (A B : nat -> nat -> R) (i j : nat) : R := sumR d (fun k => A i k * B k j).
Fixpoint prodR (n : nat) (f : nat -> R) : R := match n with O => 1 | S m => prodR m f * f m end.
(** [D] is the determinant of matrices of size [d]: multiplicative, unchanged by transposition, and the
    product of the diagonal for triangular matrices. *)
Definition determinant (d : nat) (D : (nat -> nat -> R) -> R) : Prop :=
  (forall A B, (forall i j, (i < d)%nat -> (j < d)%nat -> A i j = B i j) -> D A = D B) /\
  (forall A B, D (mprod d A B) = D A * D B) /\
  (forall A, D (fun i j => A j i) = D A) /\
  (forall A, (forall i j, (i < j)%nat -> (j < d)%nat -> A i j = 0) -> D A = prodR d (fun i => A i i)).
(** The decomposition returns the determinant. *)
Definition lup_det (d : nat) (D : (nat -> nat -> R) -> R) (lup : matrix R -> res (R * matrix R)) : Prop :=
  forall C det Ci, covariance d C -> lup C = Ok (det, Ci) -> det = D (entry C).
(** The log-likelihood of the data, up to a constant that depends on the size of the data only. *)
Definition log_likelihood (X : matrix R) (self : GMM R) (g : nat -> (nat -> R) -> R) : R :=
  sumR (nrows X) (fun i => ln (mixture_density (gmm_comp_count self) (gmm_mix_weights self) g (entry X i))).
(** With the diagonal option all covariances are diagonal. *)
Definition diagonal_if (self : GMM R) : Prop :=
  gmm_cov_option self = CovDiagonal -> forall Cs, gmm_covars self = Some Cs -> forall C, In C Cs ->
    forall a b, (a < mcols C)%nat -> (b < mcols C)%nat -> a <> b -> entry C a b = 0.
