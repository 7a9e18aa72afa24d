(** * Specification: when training succeeds *)
From Coq Require Import List Arith Reals.
From Verif Require Import Base Num NumFn Linalg Spec_Calc Spec_Regression Spec_GLM Spec_GP Model_GMM Spec_GMM Model_GLM.
Import ListNotations.
Local Open Scope R_scope.

(** Only the zero affine function vanishes on all rows. *)
Definition spans (X : matrix R) : Prop :=
  forall q, length q = S (mcols X) -> (forall r, In r (mrows X) -> affine q r = 0) -> q = repeat 0 (S (mcols X)).
(** Square, and only the zero vector is mapped to zero. *)
Definition regular (A : matrix R) : Prop :=
  mwf A /\ nrows A = mcols A /\ forall v, length v = mcols A -> mat_vec A v = repeat 0 (nrows A) -> v = repeat 0 (mcols A).
(** Symmetric and positive definite. *)
Definition definite (d : nat) (C : matrix R) : Prop :=
  mwf C /\ nrows C = d /\ mcols C = d /\ (forall a b, (a < d)%nat -> (b < d)%nat -> entry C a b = entry C b a) /\
  forall u, (exists a, (a < d)%nat /\ u a <> 0) -> 0 < sumR d (fun a => sumR d (fun b => u a * entry C a b * u b)).

(** Exact solvers: answers are right, and there is an answer whenever the matrix is regular. *)
Definition solver_exact (solve : matrix R -> list R -> res (list R)) : Prop :=
  solver_sound solve /\ forall A b, mwf A -> nrows A = mcols A -> length b = nrows A -> ((exists x, solve A b = Ok x) <-> regular A).
Definition inverse_exact (inverse : matrix R -> option (matrix R)) : Prop :=
  inverse_sound inverse /\ forall A, regular A -> exists B, inverse A = Some B.
Definition triangular_exact (shape : matrix R -> Prop) (solve : matrix R -> list R -> res (list R)) : Prop :=
  triangular_sound shape solve /\ forall L b, shape L -> regular L -> length b = nrows L -> exists x, solve L b = Ok x.
Definition cholesky_exact (cholesky : matrix R -> option (matrix R)) : Prop :=
  cholesky_sound cholesky /\ forall d C, definite d C -> exists L, cholesky C = Some L.
Definition lup_exact (lup : matrix R -> res (R * matrix R)) : Prop :=
  lup_sound lup /\ forall d C, definite d C -> exists p, lup C = Ok p.

(** The families of the crate, with positive weights for the binomial one. *)
Inductive crate_family (n : nat) : Criterion R -> Prop :=
| cf_normal : crate_family n Normal
| cf_poisson : crate_family n Poisson
| cf_bernoulli : crate_family n Bernoulli
| cf_binomial ws : (n <= length ws)%nat -> (forall i, (i < n)%nat -> 0 < nth i ws 0) -> crate_family n (Binomial ws).

(** The data vary in all directions that the covariance option keeps. *)
Definition varies (opt : CovOption R) (X : matrix R) : Prop :=
  match opt with
  | CovFull => spans X
  | CovDiagonal => forall a, (a < mcols X)%nat -> exists i j, (i < nrows X)%nat /\ (j < nrows X)%nat /\ entry X i a <> entry X j a
  | CovRegularized eps => 0 < eps \/ spans X
  end.
