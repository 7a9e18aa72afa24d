(** * C159: naive Bayes training maximises a likelihood ([src/learning/naive_bayes.rs]) *)
From Coq Require Import List Arith Bool Reals.
From Verif Require Import Base Num NumFn Linalg LinalgR Spec_Calc Model_NaiveBayes Spec_NaiveBayes Spec_NBFit Proof_NBFit2 Proof_NaiveBayesEx.
Import ListNotations.
Local Open Scope R_scope.

(** C159: with Bernoulli features the trained class priors and feature probabilities are the only ones of greatest likelihood,
    when every class is given one more row with all features present and one more row with none. *)
Theorem C159_bernoulli : forall (inputs targets : matrix R) (cs : list nat),
  mwf targets -> nrows targets = nrows inputs -> labelled targets cs -> (forall c, (c < mcols targets)%nat -> In c cs) -> (0 < mcols targets)%nat ->
  forall m : NaiveBayes R (Smooth R), (forall i j, (i < nrows inputs)%nat -> (j < mcols inputs)%nat -> 0 <= entry inputs i j <= 1) ->
  exists m' pr p, nb_train Bernoulli m inputs targets = (m', Ok tt) /\ nb_class_prior m' = Some pr /\ nb_distr m' = Some p /\
    let q0 := fun c => nth c pr 0 in let p0 := fun c j => exp (entry (s_log_probs p) c j) in
    class_probs (mcols targets) q0 /\ bern_probs inputs (mcols targets) p0 /\
    forall q p', class_probs (mcols targets) q -> bern_probs inputs (mcols targets) p' ->
      bern_fit inputs cs (mcols targets) q p' <= bern_fit inputs cs (mcols targets) q0 p0 /\
      (bern_fit inputs cs (mcols targets) q p' = bern_fit inputs cs (mcols targets) q0 p0 ->
       (forall c, (c < mcols targets)%nat -> q c = q0 c) /\ forall c j, (c < mcols targets)%nat -> (j < mcols inputs)%nat -> p' c j = p0 c j).
Proof. exact bern_trained. Qed.
Print Assumptions C159_bernoulli.
(** C159: the same for word counts and multinomial probabilities. *)
Theorem C159_multinomial : forall (inputs targets : matrix R) (cs : list nat),
  mwf targets -> nrows targets = nrows inputs -> labelled targets cs -> (forall c, (c < mcols targets)%nat -> In c cs) -> (0 < mcols targets)%nat ->
  forall m : NaiveBayes R (Smooth R), (0 < mcols inputs)%nat -> (forall i j, (i < nrows inputs)%nat -> (j < mcols inputs)%nat -> 0 <= entry inputs i j) ->
  exists m' pr p, nb_train Multinomial m inputs targets = (m', Ok tt) /\ nb_class_prior m' = Some pr /\ nb_distr m' = Some p /\
    let q0 := fun c => nth c pr 0 in let p0 := fun c j => exp (entry (s_log_probs p) c j) in
    class_probs (mcols targets) q0 /\ mult_probs inputs (mcols targets) p0 /\
    forall q p', class_probs (mcols targets) q -> mult_probs inputs (mcols targets) p' ->
      mult_fit inputs cs (mcols targets) q p' <= mult_fit inputs cs (mcols targets) q0 p0 /\
      (mult_fit inputs cs (mcols targets) q p' = mult_fit inputs cs (mcols targets) q0 p0 ->
       (forall c, (c < mcols targets)%nat -> q c = q0 c) /\ forall c j, (c < mcols targets)%nat -> (j < mcols inputs)%nat -> p' c j = p0 c j).
Proof. exact mult_trained. Qed.
Print Assumptions C159_multinomial.
(** C159: with Gaussian features the trained priors, means and variances are the only ones of greatest likelihood when each
    class and feature has one degree of freedom less; the plain likelihood is never at its greatest. *)
Theorem C159_gaussian : forall (inputs targets : matrix R) (cs : list nat),
  mwf targets -> nrows targets = nrows inputs -> labelled targets cs -> (forall c, (c < mcols targets)%nat -> In c cs) -> (0 < mcols targets)%nat ->
  forall m : NaiveBayes R (Gauss R), (0 < mcols inputs)%nat -> (forall c, (c < mcols targets)%nat -> (2 <= count_occ Nat.eq_dec cs c)%nat) ->
  (forall c j, (c < mcols targets)%nat -> (j < mcols inputs)%nat -> 0 < cls_var inputs cs c j) ->
  exists m' pr p, nb_train Gaussian m inputs targets = (m', Ok tt) /\ nb_class_prior m' = Some pr /\ nb_distr m' = Some p /\
    let q0 := fun c => nth c pr 0 in let mu0 := fun c j => entry (g_theta p) c j in let v0 := fun c j => entry (g_sigma p) c j in
    class_probs (mcols targets) q0 /\ variances inputs (mcols targets) v0 /\
    (forall q mu v, class_probs (mcols targets) q -> variances inputs (mcols targets) v ->
      gauss_fit_free inputs cs (mcols targets) q mu v <= gauss_fit_free inputs cs (mcols targets) q0 mu0 v0 /\
      (gauss_fit_free inputs cs (mcols targets) q mu v = gauss_fit_free inputs cs (mcols targets) q0 mu0 v0 ->
       (forall c, (c < mcols targets)%nat -> q c = q0 c) /\
       forall c j, (c < mcols targets)%nat -> (j < mcols inputs)%nat -> mu c j = mu0 c j /\ v c j = v0 c j)) /\
    exists v, variances inputs (mcols targets) v /\ gauss_lik inputs cs q0 mu0 v0 < gauss_lik inputs cs q0 mu0 v.
Proof. exact gauss_trained. Qed.
Print Assumptions C159_gaussian.
Example C159_ex : mwf ex_targets /\ nrows ex_targets = nrows ex_inputs /\ labelled ex_targets ex_cs /\ (forall c, (c < mcols ex_targets)%nat -> In c ex_cs) /\
  (0 < mcols ex_targets)%nat /\ (0 < mcols ex_inputs)%nat /\ (forall c, (c < mcols ex_targets)%nat -> (2 <= count_occ Nat.eq_dec ex_cs c)%nat) /\
  (forall c j, (c < mcols ex_targets)%nat -> (j < mcols ex_inputs)%nat -> 0 < cls_var ex_inputs ex_cs c j) /\
  (forall i j, (i < nrows ex_inputs)%nat -> (j < mcols ex_inputs)%nat -> 0 <= entry ex_inputs i j <= 1) /\
  class_probs 2 (fun _ => 1 / 2) /\ bern_probs ex_inputs 2 (fun _ _ => 1 / 2) /\ mult_probs ex_inputs 2 (fun _ _ => 1) /\ variances ex_inputs 2 (fun _ _ => 1).
Proof. exact nbfit_ex. Qed.
