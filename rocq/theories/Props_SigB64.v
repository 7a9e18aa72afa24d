(** * C119: logistic predictions in binary64 *)
From Coq Require Import List Arith Bool Reals ZArith.
From Flocq Require Import Core BinarySingleNaN.
From Verif Require Import Base Num NumF NumFn Linalg Model_Optim Model_Cost Model_Toolkit Model_Regression Spec_B64 Spec_SigB64 Proof_B64Ex Proof_SigB64 Proof_SigB64Ex.
Import ListNotations.
Local Open Scope R_scope.

(** C119: whatever numbers the parameters and the inputs are, a prediction whose score is not NaN is a finite number in [0, 1]; predictions above (below)
    one half belong to positive (negative) scores, and larger scores never get smaller predictions. *)
Theorem C119_predictions : forall (NF : NumFn B64) (self : LogisticRegressor B64) (Z : matrix B64) w z, sound_exp nexp -> log_parameters self = Some w -> rmat_vec (with_ones Z) w = Ok z ->
  exists out, log_predict self Z = Ok out /\ length out = length z /\ forall i, (i < length z)%nat -> is_nan (nth i z nzero) = false ->
    within 0 1 (nth i out nzero) /\ (1 / 2 < B2R (nth i out nzero) -> Bltb nzero (nth i z nzero) = true) /\ (B2R (nth i out nzero) < 1 / 2 -> Bltb (nth i z nzero) nzero = true) /\
    forall j, (j < length z)%nat -> Bleb (nth i z nzero) (nth j z nzero) = true -> B2R (nth i out nzero) <= B2R (nth j out nzero).
Proof. exact log_predict_range. Qed.
Print Assumptions C119_predictions.

(** C119: the activation function by itself: range, order, value at zero (both zeros), sides. *)
Theorem C119_range : forall (NF : NumFn B64), sound_exp nexp -> forall x : B64, is_nan x = false -> within 0 1 (sigmoid x).
Proof. exact @sigmoid_range. Qed.
Print Assumptions C119_range.
Theorem C119_monotone : forall (NF : NumFn B64), sound_exp nexp -> forall x y : B64, Bleb x y = true -> B2R (sigmoid x) <= B2R (sigmoid y).
Proof. exact @sigmoid_mono. Qed.
Print Assumptions C119_monotone.
Theorem C119_zero : forall (NF : NumFn B64), sound_exp nexp -> forall x : B64, is_real x 0 -> is_real (sigmoid x) (1 / 2).
Proof. exact @sigmoid_zero. Qed.
Print Assumptions C119_zero.
(** C119: absolute error at most that of the library exponential plus four roundings. *)
Theorem C119_accuracy : forall (NF : NumFn B64), sound_exp nexp -> forall u, 0 <= u <= / 1024 -> accurate_exp u nexp ->
  forall x : B64, is_finite x = true -> Rabs (B2R (sigmoid x) - logistic (B2R x)) <= u + 4 * u64.
Proof. exact @sigmoid_accuracy. Qed.
Print Assumptions C119_accuracy.
(** C119: the derivative used by backpropagation stays in [0, 1/4]. *)
Theorem C119_derivative : forall y : B64, within 0 1 y -> within 0 (1 / 4) (nmul y (nsub nonev y)).
Proof. exact grad_range. Qed.
Print Assumptions C119_derivative.

(** C119: from 40 on the prediction is exactly 1 ... *)
Theorem C119_saturates : forall (NF : NumFn B64), sound_exp nexp -> forall u, 0 <= u <= / 1024 -> accurate_exp u nexp ->
  forall x : B64, Bleb (b64_of_Z 40) x = true -> sigmoid x = nonev.
Proof. exact @sigmoid_saturates. Qed.
Print Assumptions C119_saturates.
(** ... and then one correctly classified row of target 1 makes the training cost of the whole batch NaN. *)
Theorem C119_cost_nan : forall (NF : NumFn B64), sound_exp nexp -> forall u, 0 <= u <= / 1024 -> accurate_exp u nexp ->
  forall (X : matrix B64) (y w z : list B64) i c g, nln (B754_zero false : B64) = B754_infinity true ->
  rmat_vec X w = Ok z -> (i < length z)%nat -> Bleb (b64_of_Z 40) (nth i z nzero) = true -> nth i y nzero = nonev -> log_compute_grad X y w = Ok (c, g) -> c = B754_nan.
Proof. exact @confident_row_nan. Qed.
Print Assumptions C119_cost_nan.
(** C119: the data of such a batch can be as simple as one row. *)
Theorem C119_cost_nan_one_row : exists g, @log_compute_grad B64 NumB64 libm_ex (Mat [[nonev]] 1) [nonev] [b64_of_Z 40] = Ok (B754_nan, g).
Proof. exact nan_batch_cost. Qed.
Print Assumptions C119_cost_nan_one_row.

(** The hypotheses hold of the correctly rounded exponential. *)
Example C119_ex : sound_exp b64_exp /\ accurate_exp (bpow radix2 (-53)) b64_exp /\ 0 <= bpow radix2 (-53) <= / 1024.
Proof. exact (conj b64_exp_sound (conj b64_exp_accurate unit_small)). Qed.
