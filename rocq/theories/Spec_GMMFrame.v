(** * Specification: mixture models in another frame of the features *)
From Coq Require Import List Arith Reals.
From Verif Require Import Base Num NumFn Linalg Spec_Calc Model_GMM Spec_GMM.
Import ListNotations.
Local Open Scope R_scope.

(** [x] becomes [A x + b]. *)
Definition coord (d : nat) (A : nat -> nat -> R) (b : nat -> R) (x : nat -> R) (a : nat) : R := sumR d (fun c => A a c * x c) + b a.
Definition in_frame (d : nat) (A : nat -> nat -> R) (b : nat -> R) (x : list R) : list R := map (coord d A b (fun c => nth c x 0)) (seq 0 d).
Definition data_in_frame (A : nat -> nat -> R) (b : nat -> R) (X : matrix R) : matrix R := Mat (map (in_frame (mcols X) A b) (mrows X)) (mcols X).
Definition delta (a b : nat) : R := if (a =? b)%nat then 1 else 0.
(** [Ai] is the inverse of [A]. *)
Definition inverses (d : nat) (A Ai : nat -> nat -> R) : Prop :=
  forall a b, (a < d)%nat -> (b < d)%nat -> mprod d A Ai a b = delta a b /\ mprod d Ai A a b = delta a b.
(** The frames that suit a covariance option: any for full covariances, a change of units for diagonal ones, a
    rigid motion when a multiple of the identity is added. *)
Definition suits (opt : CovOption R) (d : nat) (A : nat -> nat -> R) : Prop :=
  match opt with
  | CovFull => True
  | CovDiagonal => forall a b, (a < d)%nat -> (b < d)%nat -> a <> b -> A a b = 0
  | CovRegularized _ => forall a b, (a < d)%nat -> (b < d)%nat -> sumR d (fun c => A a c * A b c) = delta a b
  end.

(** Two computations with the same draws, whose results are related. *)
Fixpoint lockstep {A B} (Q : A -> B -> Prop) (p : Rnd A) (q : Rnd B) : Prop :=
  match p, q with
  | RRet a, RRet b => Q a b
  | RGen hi k, RGen hi' k' => hi = hi' /\ forall i, (i < hi)%nat -> lockstep Q (k i) (k' i)
  | RPanic, RPanic => True
  | _, _ => False
  end.

(** The model [m] for data [X] and the model [m'] for the data in the frame give all points the same probabilities. *)
Definition same_memberships (lup : matrix R -> res (R * matrix R)) (d : nat) (A : nat -> nat -> R) (b : nat -> R) (m m' : GMM R) : Prop :=
  forall Z P P', mwf Z -> mcols Z = d -> gmm_predict lup m Z = Ok P -> gmm_predict lup m' (data_in_frame A b Z) = Ok P' -> P' = P.
(** [m] is the start of training on [X], and the log-likelihood of the start is within 1e-15 of the number stored in [old]. *)
Definition stopped_at_start (lup : matrix R -> res (R * matrix R)) (X : matrix R) (old m : GMM R) : Prop :=
  starting X old m /\ exists g, component_densities lup (mcols X) m g /\ Rabs (log_likelihood X m g - gmm_log_lik old) < 1 / 10 ^ 15.
