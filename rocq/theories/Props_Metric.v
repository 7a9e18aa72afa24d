(** * C197: scores of models that answer alike, and of mixed answers ([src/analysis/score.rs]) *)
From Coq Require Import List Arith Bool Reals.
From Verif Require Import Base Num NumX Linalg Spec_Calc Model_Score Model_Cost Spec_Metric Proof_Metric.
Import ListNotations.
Local Open Scope R_scope.

(** C197: the accuracies of two classifiers differ by at most the share of samples on which their answers differ, and their sum exceeds one by
    at most the share on which they agree. *)
Theorem C197_accuracy : forall (T : Type) (eqb : T -> T -> bool), (forall x y, eqb x y = true <-> x = y) -> forall a b t p q r,
  accuracy (F := X) eqb a t = Ok (Fin p) -> accuracy (F := X) eqb b t = Ok (Fin q) -> accuracy (F := X) eqb a b = Ok (Fin r) -> Rabs (p - q) <= 1 - r /\ p + q <= 1 + r.
Proof. exact @accuracy_alike. Qed.
Print Assumptions C197_accuracy.
Example C197_accuracy_ex : (forall x y, Nat.eqb x y = true <-> x = y) /\ accuracy (F := X) Nat.eqb [1; 2; 2; 0]%nat [1; 2; 0; 0]%nat = Ok (Fin (3 / 4)) /\
  accuracy (F := X) Nat.eqb [1; 1; 2; 0]%nat [1; 2; 0; 0]%nat = Ok (Fin (1 / 2)) /\ accuracy (F := X) Nat.eqb [1; 2; 2; 0]%nat [1; 1; 2; 0]%nat = Ok (Fin (3 / 4)).
Proof. exact (conj Nat.eqb_eq alike_case). Qed.

(** C197: the error rate of a vote of three classifiers is at most half the sum of their error rates. *)
Theorem C197_vote : forall (T : Type) (eqb : T -> T -> bool), (forall x y, eqb x y = true <-> x = y) -> forall a b c v t p q r s, majority a b c v ->
  accuracy (F := X) eqb a t = Ok (Fin p) -> accuracy (F := X) eqb b t = Ok (Fin q) -> accuracy (F := X) eqb c t = Ok (Fin r) -> accuracy (F := X) eqb v t = Ok (Fin s) ->
  1 - s <= ((1 - p) + (1 - q) + (1 - r)) / 2.
Proof. exact @accuracy_majority. Qed.
Print Assumptions C197_vote.
Example C197_vote_ex : majority [1; 2; 2; 0]%nat [1; 1; 0; 0]%nat [2; 2; 0; 1]%nat [1; 2; 0; 0]%nat /\ accuracy (F := X) Nat.eqb [1; 2; 2; 0]%nat [1; 2; 0; 1]%nat = Ok (Fin (1 / 2)) /\
  accuracy (F := X) Nat.eqb [1; 1; 0; 0]%nat [1; 2; 0; 1]%nat = Ok (Fin (1 / 2)) /\ accuracy (F := X) Nat.eqb [2; 2; 0; 1]%nat [1; 2; 0; 1]%nat = Ok (Fin (3 / 4)) /\
  accuracy (F := X) Nat.eqb [1; 2; 0; 0]%nat [1; 2; 0; 1]%nat = Ok (Fin (3 / 4)).
Proof. exact vote_case. Qed.

(** C197: the root mean squared errors of two regression models differ by at most the root mean squared difference of their answers. *)
Theorem C197_root_mean_squared_error : forall a b t p q r, mwf a -> mwf b -> mwf t -> (0 < nrows a)%nat ->
  neg_mean_squared_error a t = Ok p -> neg_mean_squared_error b t = Ok q -> neg_mean_squared_error a b = Ok r -> Rabs (sqrt (- p) - sqrt (- q)) <= sqrt (- r).
Proof. exact nmse_alike. Qed.
Print Assumptions C197_root_mean_squared_error.
Example C197_root_mean_squared_error_ex : exists p q r, mwf blend_a /\ mwf blend_b /\ mwf blend_t /\ (0 < nrows blend_a)%nat /\
  neg_mean_squared_error blend_a blend_t = Ok p /\ neg_mean_squared_error blend_b blend_t = Ok q /\ neg_mean_squared_error blend_a blend_b = Ok r.
Proof. destruct blend_case as (A & B & _ & T & N & _ & P & Q & R & _). exact (ex_intro _ _ (ex_intro _ _ (ex_intro _ _ (conj A (conj B (conj T (conj N (conj P (conj Q R))))))))). Qed.

(** C197: the score of a mixture of two models' answers is the mixture of their scores plus a bonus for their disagreement. *)
Theorem C197_mixture : forall w a b m t p q r s, mwf a -> mwf b -> mwf m -> mwf t -> (0 < nrows a)%nat -> mixes w a b m ->
  neg_mean_squared_error a t = Ok p -> neg_mean_squared_error b t = Ok q -> neg_mean_squared_error a b = Ok r -> neg_mean_squared_error m t = Ok s ->
  s = w * p + (1 - w) * q - w * (1 - w) * r.
Proof. exact nmse_mixes. Qed.
Print Assumptions C197_mixture.
Example C197_mixture_ex : mwf blend_a /\ mwf blend_b /\ mwf blend_m /\ mwf blend_t /\ (0 < nrows blend_a)%nat /\ mixes (/ 2) blend_a blend_b blend_m /\
  neg_mean_squared_error blend_a blend_t = Ok (-5) /\ neg_mean_squared_error blend_b blend_t = Ok (-1) /\ neg_mean_squared_error blend_a blend_b = Ok (-10) /\ neg_mean_squared_error blend_m blend_t = Ok (- / 2).
Proof. exact blend_case. Qed.
