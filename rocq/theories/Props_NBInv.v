(** * C123: naive Bayes classifiers do not depend on how the training set is written down ([src/learning/naive_bayes.rs]) *)
From Coq Require Import List Arith Lia Bool Reals Lra Permutation.
From Verif Require Import Base Num Linalg Spec_Calc Model_NaiveBayes Spec_NaiveBayes Spec_NBInv Proof_NBInv Proof_NBInvEx.
Import ListNotations.
Local Open Scope R_scope.

(** Other units for the features, in training and in the questions, change no answer of the Gaussian classifier. *)
Theorem C123_gaussian_units : forall (A A' T M M' : matrix R) cs a b, classified A T M cs -> gauss_ready A cs (mcols T) ->
  (forall j, (j < mcols A)%nat -> a j <> 0) -> in_units a b A A' -> in_units a b M M' ->
  forall m1 m2, exists out, answers Gaussian m1 A T M out /\ answers Gaussian m2 A' T M' out.
Proof. exact gauss_units. Qed.
Print Assumptions C123_gaussian_units.
Example C123_units_ex : classified nbx nbt nbm nbcs /\ (gauss_ready nbx nbcs 2 /\ between 0 1 nbx /\ nonneg nbx) /\
  (forall j, (j < mcols nbx)%nat -> nb_a j <> 0) /\ in_units nb_a nb_b nbx nbx_units /\ in_units nb_a nb_b nbm nbm_units.
Proof. exact (conj nb_classified (conj nb_ready nb_units_ok)). Qed.

(** The order of the features. *)
Theorem C123_feature_order : forall (A A' T M M' : matrix R) cs pi, classified A T M cs ->
  Permutation pi (seq 0 (mcols A)) -> in_order pi A A' -> in_order pi M M' ->
  (gauss_ready A cs (mcols T) -> forall m1 m2, exists out, answers Gaussian m1 A T M out /\ answers Gaussian m2 A' T M' out) /\
  (between 0 1 A -> forall m1 m2, exists out, answers Bernoulli m1 A T M out /\ answers Bernoulli m2 A' T M' out) /\
  (nonneg A -> forall m1 m2, exists out, answers Multinomial m1 A T M out /\ answers Multinomial m2 A' T M' out).
Proof.
  exact (fun A A' T M M' cs pi H P O OM => conj (fun G => gauss_order A A' T M M' cs pi H G P O OM)
    (conj (fun G => bern_order A A' T M M' cs pi H G P O OM) (fun G => mult_order A A' T M M' cs pi H G P O OM))).
Qed.
Print Assumptions C123_feature_order.
Example C123_order_ex : classified nbx nbt nbm nbcs /\ (gauss_ready nbx nbcs 2 /\ between 0 1 nbx /\ nonneg nbx) /\
  Permutation [1; 0]%nat (seq 0 (mcols nbx)) /\ in_order [1; 0]%nat nbx nbx_order /\ in_order [1; 0]%nat nbm nbm_order.
Proof. exact (conj nb_classified (conj nb_ready nb_order_ok)). Qed.

(** Which of the two values of a feature is written 1 does not matter to the Bernoulli classifier. *)
Theorem C123_bernoulli_coding : forall (A A' T M M' : matrix R) cs flip, classified A T M cs -> between 0 1 A ->
  in_code flip A A' -> in_code flip M M' ->
  forall m1 m2, exists out, answers Bernoulli m1 A T M out /\ answers Bernoulli m2 A' T M' out.
Proof. exact bern_code. Qed.
Print Assumptions C123_bernoulli_coding.
Example C123_coding_ex : classified nbx nbt nbm nbcs /\ (gauss_ready nbx nbcs 2 /\ between 0 1 nbx /\ nonneg nbx) /\
  in_code (Nat.eqb 1) nbx nbx_code /\ in_code (Nat.eqb 1) nbm nbm_code.
Proof. exact (conj nb_classified (conj nb_ready nb_code_ok)). Qed.

(** Class [c] renamed [nth c pi 0]: where the best class is not tied, the answer is the renamed class. *)
Theorem C123_class_names : forall (A M : matrix R) cs k pi, length cs = nrows A -> Forall (fun c => (c < k)%nat) cs ->
  (forall c, (c < k)%nat -> In c cs) -> (0 < k)%nat -> mwf M -> mcols M = mcols A -> Permutation pi (seq 0 k) ->
  let T := hot_targets k cs in let T' := hot_targets k (map (fun c => nth c pi 0%nat) cs) in
  let renamed ll (out out' : matrix R) := nrows out = nrows M /\ nrows out' = nrows M /\
    forall i c, (i < nrows M)%nat -> only_best k (fun c => ll A cs c (nth i (mrows M) [])) c ->
      nth i (mrows out) [] = one_hot k c /\ nth i (mrows out') [] = one_hot k (nth c pi 0%nat) in
  (gauss_ready A cs k -> forall m1 m2, exists out out', answers Gaussian m1 A T M out /\ answers Gaussian m2 A T' M out' /\ renamed gauss_ll out out') /\
  (between 0 1 A -> forall m1 m2, exists out out', answers Bernoulli m1 A T M out /\ answers Bernoulli m2 A T' M out' /\ renamed bern_ll out out') /\
  (nonneg A -> forall m1 m2, exists out out', answers Multinomial m1 A T M out /\ answers Multinomial m2 A T' M out' /\ renamed mult_ll out out').
Proof.
  exact (fun A M cs k pi L F ALL K W C P => conj (gauss_names A M cs k pi L F ALL K W C P)
    (conj (bern_names A M cs k pi L F ALL K W C P) (mult_names A M cs k pi L F ALL K W C P))).
Qed.
Print Assumptions C123_class_names.
Example C123_names_ex : length nbcs = nrows nbx /\ Forall (fun c => (c < 2)%nat) nbcs /\ (forall c, (c < 2)%nat -> In c nbcs) /\
  Permutation [1; 0]%nat (seq 0 2) /\ map (fun c => nth c [1; 0]%nat 0%nat) nbcs = [1; 1; 1; 0; 0; 0]%nat /\
  only_best 2 (fun c => bern_ll nbx nbcs c [1; 1]) 1.
Proof. exact nb_names_ok. Qed.
