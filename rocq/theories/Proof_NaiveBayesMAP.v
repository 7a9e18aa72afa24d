(** * Naive Bayes over the reals: the prediction is the class of greatest posterior *)
From Coq Require Import List Arith Lia Bool Reals Lra.
From Verif Require Import Base BaseLemmas Num NumX NumFn NumOrd Linalg LinalgR Spec_Calc Spec_Transforms Model_KMeans Proof_KMeans Model_NaiveBayes Spec_NaiveBayes Proof_NaiveBayes Proof_NaiveBayes2 Proof_NaiveBayesX.
Import ListNotations.
Local Open Scope R_scope.

Lemma is_best_ext {F} {N : Num F} k (s t : nat -> F) c : (forall i, (i < k)%nat -> s i = t i) -> is_best k s c -> is_best k t c.
Proof.
  intros E (A & B & C). split; auto. split; intros i Hi.
  - rewrite <- !E by auto. auto.
  - rewrite <- !E by lia. auto.
Qed.
Lemma map_of_scores {P} (D : @Distribution R P) (m : NaiveBayes R P) (X lp : matrix R) k (ll : nat -> list R -> R) :
  get_log_probs D m X = Ok lp -> nb_cluster_count m = Some k -> mwf lp -> nrows lp = nrows X -> mcols lp = k -> (0 < k)%nat ->
  (forall i c, (i < nrows X)%nat -> (c < k)%nat -> entry lp i c = ll c (nth i (mrows X) [])) ->
  exists out, nb_predict D m X = Ok out /\ nrows out = nrows X /\
    forall i, (i < nrows X)%nat -> exists c, nth i (mrows out) [] = one_hot k c /\ is_best k (fun c => ll c (nth i (mrows X) [])) c.
Proof.
  intros E K W L C K0 H. destruct (predict_one_hot D m X lp k) as (out & cs & A1 & A2 & A3 & A4 & A5); auto.
  exists out. split; auto. split; auto. intros i Hi. exists (nth i cs 0%nat). destruct (A5 i Hi) as [B1 B2]. split; auto.
  eapply is_best_ext; [|exact B2]. intros c Hc. cbv beta. symmetry. rewrite <- H by auto. reflexivity.
Qed.

Section MAP.
  Context (inputs targets X : matrix R) (cs : list nat).
  Hypothesis Wi : mwf inputs.
  Hypothesis Wt : mwf targets.
  Hypothesis L : nrows targets = nrows inputs.
  Hypothesis H : labelled targets cs.
  Hypothesis ALL : forall c, (c < mcols targets)%nat -> In c cs.
  Hypothesis K0 : (0 < mcols targets)%nat.
  Hypothesis WX : mwf X.
  Hypothesis CX : mcols X = mcols inputs.

  Theorem gauss_map (m : NaiveBayes R (Gauss R)) : (forall c, (c < mcols targets)%nat -> (2 <= count_occ Nat.eq_dec cs c)%nat) ->
    (forall c j, (c < mcols targets)%nat -> (j < mcols inputs)%nat -> 0 < cls_var inputs cs c j) ->
    exists m' out, nb_train Gaussian m inputs targets = (m', Ok tt) /\ nb_predict Gaussian m' X = Ok out /\ nrows out = nrows X /\
      forall i, (i < nrows X)%nat -> exists c, nth i (mrows out) [] = one_hot (mcols targets) c /\ is_best (mcols targets) (fun c => gauss_ll inputs cs c (nth i (mrows X) [])) c.
  Proof.
    intros H2 V. destruct (gauss_fit inputs targets cs) with (m := m) as (m' & p & E1 & E2 & E3 & E4 & E5 & E6); auto.
    { intros c Hc. apply H2. eapply fit_lt; eauto. }
    destruct (E6 X WX CX) as (lp & A1 & A2 & A3 & A4 & A5).
    destruct (map_of_scores Gaussian m' X lp (mcols targets) (gauss_ll inputs cs)) as (out & B1 & B2 & B3); auto. exists m', out. auto.
  Qed.
  Theorem bernoulli_map (m : NaiveBayes R (Smooth R)) : (forall i j, (i < nrows inputs)%nat -> (j < mcols inputs)%nat -> 0 <= entry inputs i j <= 1) ->
    exists m' out, nb_train Bernoulli m inputs targets = (m', Ok tt) /\ nb_predict Bernoulli m' X = Ok out /\ nrows out = nrows X /\
      forall i, (i < nrows X)%nat -> exists c, nth i (mrows out) [] = one_hot (mcols targets) c /\ is_best (mcols targets) (fun c => bern_ll inputs cs c (nth i (mrows X) [])) c.
  Proof.
    intros V. destruct (bernoulli_fit inputs targets cs) with (m := m) as (m' & p & E1 & E2 & E3 & E4 & E5 & E6); auto.
    destruct (E6 X WX CX) as (lp & A1 & A2 & A3 & A4 & A5).
    destruct (map_of_scores Bernoulli m' X lp (mcols targets) (bern_ll inputs cs)) as (out & B1 & B2 & B3); auto. exists m', out. auto.
  Qed.
  Theorem multinomial_map (m : NaiveBayes R (Smooth R)) : (forall i j, (i < nrows inputs)%nat -> (j < mcols inputs)%nat -> 0 <= entry inputs i j) ->
    exists m' out, nb_train Multinomial m inputs targets = (m', Ok tt) /\ nb_predict Multinomial m' X = Ok out /\ nrows out = nrows X /\
      forall i, (i < nrows X)%nat -> exists c, nth i (mrows out) [] = one_hot (mcols targets) c /\ is_best (mcols targets) (fun c => mult_ll inputs cs c (nth i (mrows X) [])) c.
  Proof.
    intros V. destruct (multinomial_fit inputs targets cs) with (m := m) as (m' & p & E1 & E2 & E3 & E4 & E5 & E6); auto.
    destruct (E6 X WX CX) as (lp & A1 & A2 & A3 & A4 & A5).
    destruct (map_of_scores Multinomial m' X lp (mcols targets) (mult_ll inputs cs)) as (out & B1 & B2 & B3); auto. exists m', out. auto.
  Qed.
End MAP.

(** ** A class 0 nobody has seen wins *)
Lemma label_X1 : labelled (Mat [[Fin 0; Fin 1]; [Fin 0; Fin 1]] 2) [1; 1]%nat.
Proof.
  assert (Q : is_label [Fin 0; Fin 1] 1).
  { split; [cbn; lia|]. split.
    - cbn. destruct (Req_EM_T 1 1) as [_|Q]; [reflexivity|now destruct Q].
    - intros [|j] Hj; [|lia]. cbn. destruct (Req_EM_T 0 1); auto. exfalso; lra. }
  repeat constructor; apply Q.
Qed.
Lemma unseen_zero_wins :
  exists (inputs X : matrix R) (targets : matrix NumX.X) cs, (0 < nrows inputs)%nat /\ mwf targets /\ nrows targets = nrows inputs /\ labelled targets cs /\ ~ In 0%nat cs /\ nrows X = 1%nat /\
    (exists m' out, nb_train Gaussian nb_new (inj inputs) targets = (m', Ok tt) /\ nb_predict Gaussian m' (inj X) = Ok out /\ mrows out = [one_hot (mcols targets) 0]) /\
    (exists m' out, nb_train Bernoulli nb_new (inj inputs) targets = (m', Ok tt) /\ nb_predict Bernoulli m' (inj X) = Ok out /\ mrows out = [one_hot (mcols targets) 0]).
Proof.
  set (inputs := Mat [[1]; [0]] 1). set (X := Mat [[1]] 1). set (targets := Mat [[Fin 0; Fin 1]; [Fin 0; Fin 1]] 2).
  exists inputs, X, targets, [1; 1]%nat.
  assert (Wt : mwf targets) by (repeat constructor).
  assert (WX : mwf X) by (repeat constructor).
  assert (N0 : ~ In 0%nat [1; 1]%nat) by (cbn; intuition discriminate).
  split; [cbn; lia|]. split; [exact Wt|]. split; [reflexivity|]. split; [exact label_X1|]. split; [exact N0|]. split; [reflexivity|].
  assert (ONE : forall (out : matrix NumX.X), nrows out = 1%nat -> nth 0 (mrows out) [] = one_hot 2 0 -> mrows out = [one_hot 2 0]).
  { intros [rows w] A B. unfold nrows in A. cbn [mrows] in *. destruct rows as [|r [|]]; try discriminate. cbn in B. now subst. }
  split.
  - destruct (gauss_nan inputs targets [1;1]%nat Wt eq_refl label_X1 ltac:(cbn; lia) nb_new X) as (m' & E1 & out & E2 & E3 & E4 & E5); auto.
    { intros c [<-|[<-|[]]]; cbn; lia. }
    exists m', out. split; auto. split; auto. apply ONE; auto. apply (proj2 (E5 0%nat Nat.lt_0_1) N0).
  - destruct (bernoulli_nan inputs targets [1;1]%nat Wt eq_refl label_X1 ltac:(cbn; lia) nb_new X) as (m' & E1 & out & E2 & E3 & E4 & E5); auto.
    { intros [|i] [|j] Hi Hj; cbn in *; try lia. unfold entry. cbn. lra. }
    exists m', out. split; auto. split; auto. apply ONE; auto. apply (proj2 (E5 0%nat Nat.lt_0_1) N0).
Qed.
