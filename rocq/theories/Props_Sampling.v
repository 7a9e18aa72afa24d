(** * C189: means of reservoir samples ([src/learning/toolkit/rand_utils.rs]) *)
From Coq Require Import List Arith Lia Reals Lra.
From Verif Require Import Base Model_Rand Spec_NetSum Proof_Sampling.
Import ListNotations.
Local Open Scope R_scope.

(** C189: the mean of any quantity over a reservoir sample is right on average, repeated elements included ... *)
Theorem C189_unbiased : forall (A : Type) (f : A -> R) (pool : list A) (k : nat), (0 < k <= length pool)%nat ->
  expect (reservoir_sample pool k) (fun r => total_over f r / INR k) = total_over f pool / INR (length pool).
Proof. exact @sample_mean. Qed.
Print Assumptions C189_unbiased.
(** ... and its variance is that of sampling without replacement. *)
Theorem C189_variance : forall (A : Type) (f : A -> R) (pool : list A) (k : nat), (0 < k <= length pool)%nat -> (1 < length pool)%nat ->
  let n := INR (length pool) in let mu := total_over f pool / n in
  expect (reservoir_sample pool k) (fun r => (total_over f r / INR k - mu) ^ 2) =
  total_over (fun a => (f a - mu) ^ 2) pool / n / INR k * ((n - INR k) / (n - 1)).
Proof. exact @sample_variance. Qed.
Print Assumptions C189_variance.
Example C189_ex : (0 < 2 <= length [1; 2; 6]%R)%nat /\ total_over (fun a => a) [1; 2; 6] / 3 = 3 /\ total_over (fun a => (a - 3) ^ 2) [1; 2; 6] / 3 / 2 * ((3 - 2) / (3 - 1)) = 7 / 6.
Proof. split; [cbn; lia|exact sample_ex]. Qed.
