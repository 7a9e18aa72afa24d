(** * C33-C35, C70: naive Bayes ([src/learning/naive_bayes.rs]) *)
From Coq Require Import List Arith Lia Bool Reals Lra.
From Verif Require Import Base Num NumX NumFn NumOrd Linalg Spec_Calc Spec_Transforms Model_NaiveBayes Spec_NaiveBayes
  Proof_NaiveBayes Proof_NaiveBayes2 Proof_NaiveBayesX Proof_NaiveBayesMAP Proof_NaiveBayesEx.
Import ListNotations.

(** C33: for every number type with an order, every distribution and every fitted model: as long as
    no score is NaN, the answer is one one-hot row per input, for the first class of maximal score. *)
Theorem C33_one_hot_argmax : forall (F : Type) (N : Num F) (O : NumOrd F) (P : Type) (D : @Distribution F P)
    (m : NaiveBayes F P) (inputs lp : matrix F) (k : nat),
  get_log_probs D m inputs = Ok lp -> nb_cluster_count m = Some k ->
  mwf lp -> nrows lp = nrows inputs -> mcols lp = k -> 0 < k ->
  (forall row x, In row (mrows lp) -> In x row -> nnan x = false) ->
  exists out cs, nb_predict D m inputs = Ok out /\ nrows out = nrows inputs /\ mcols out = k /\ length cs = nrows inputs /\
    forall i, i < nrows inputs ->
      nth i (mrows out) [] = one_hot k (nth i cs 0) /\ is_best k (fun c => nth c (nth i (mrows lp) []) nzero) (nth i cs 0).
Proof. exact @predict_one_hot. Qed.
Print Assumptions C33_one_hot_argmax.
Theorem C33_untrained : forall (F : Type) (N : Num F) (P : Type) (D : @Distribution F P) (m : NaiveBayes F P) (inputs : matrix F),
  nb_distr m = None \/ nb_class_prior m = None -> nb_predict D m inputs = Err UntrainedModel.
Proof. exact @predict_untrained. Qed.
Print Assumptions C33_untrained.
(** Training followed by prediction, in exact arithmetic: the class of maximal posterior. *)
Theorem C33_gaussian_map : forall (inputs targets M : matrix R) (cs : list nat),
  mwf targets -> nrows targets = nrows inputs -> labelled targets cs ->
  (forall c, c < mcols targets -> In c cs) -> 0 < mcols targets -> mwf M -> mcols M = mcols inputs ->
  forall m : NaiveBayes R (Gauss R),
  (forall c, c < mcols targets -> 2 <= count_occ Nat.eq_dec cs c) ->
  (forall c j, c < mcols targets -> j < mcols inputs -> (0 < cls_var inputs cs c j)%R) ->
  exists m' out, nb_train Gaussian m inputs targets = (m', Ok tt) /\ nb_predict Gaussian m' M = Ok out /\ nrows out = nrows M /\
    forall i, i < nrows M -> exists c, nth i (mrows out) [] = one_hot (mcols targets) c /\
      is_best (mcols targets) (fun c => gauss_ll inputs cs c (nth i (mrows M) [])) c.
Proof. exact gauss_map. Qed.
Print Assumptions C33_gaussian_map.
Theorem C33_bernoulli_map : forall (inputs targets M : matrix R) (cs : list nat),
  mwf targets -> nrows targets = nrows inputs -> labelled targets cs ->
  (forall c, c < mcols targets -> In c cs) -> 0 < mcols targets -> mwf M -> mcols M = mcols inputs ->
  forall m : NaiveBayes R (Smooth R),
  (forall i j, i < nrows inputs -> j < mcols inputs -> (0 <= entry inputs i j <= 1)%R) ->
  exists m' out, nb_train Bernoulli m inputs targets = (m', Ok tt) /\ nb_predict Bernoulli m' M = Ok out /\ nrows out = nrows M /\
    forall i, i < nrows M -> exists c, nth i (mrows out) [] = one_hot (mcols targets) c /\
      is_best (mcols targets) (fun c => bern_ll inputs cs c (nth i (mrows M) [])) c.
Proof. exact bernoulli_map. Qed.
Print Assumptions C33_bernoulli_map.
Theorem C33_multinomial_map : forall (inputs targets M : matrix R) (cs : list nat),
  mwf targets -> nrows targets = nrows inputs -> labelled targets cs ->
  (forall c, c < mcols targets -> In c cs) -> 0 < mcols targets -> mwf M -> mcols M = mcols inputs ->
  forall m : NaiveBayes R (Smooth R),
  (forall i j, i < nrows inputs -> j < mcols inputs -> (0 <= entry inputs i j)%R) ->
  exists m' out, nb_train Multinomial m inputs targets = (m', Ok tt) /\ nb_predict Multinomial m' M = Ok out /\ nrows out = nrows M /\
    forall i, i < nrows M -> exists c, nth i (mrows out) [] = one_hot (mcols targets) c /\
      is_best (mcols targets) (fun c => mult_ll inputs cs c (nth i (mrows M) [])) c.
Proof. exact multinomial_map. Qed.
Print Assumptions C33_multinomial_map.
Example C33_ex : mwf ex_inputs /\ mwf ex_targets /\ nrows ex_targets = nrows ex_inputs /\ labelled ex_targets ex_cs /\
  (forall c, c < mcols ex_targets -> In c ex_cs) /\
  (forall c, c < mcols ex_targets -> 2 <= count_occ Nat.eq_dec ex_cs c) /\
  (forall c j, c < mcols ex_targets -> j < mcols ex_inputs -> (0 < cls_var ex_inputs ex_cs c j)%R) /\
  (forall i j, i < nrows ex_inputs -> j < mcols ex_inputs -> (0 <= entry ex_inputs i j <= 1)%R).
Proof.
  split; [repeat constructor|]. split; [repeat constructor|]. split; [reflexivity|]. split; [exact ex_labelled|].
  split; [intros [|[|c]] Hc; cbn in *; lia|]. split; [intros [|[|c]] Hc; cbn in *; lia|]. split; [|exact ex_range].
  intros c [|j] Hc Hj; [|cbn in Hj; lia]. rewrite ex_var by auto. lra.
Qed.

(** C34: the estimates and the joint log-likelihoods, for every class with training rows. *)
Theorem C34_priors : forall (inputs targets : matrix R) (cs : list nat),
  mwf targets -> nrows targets = nrows inputs -> labelled targets cs -> 0 < nrows inputs ->
  (forall c, (0 <= prior inputs cs c)%R) /\ sumR (mcols targets) (prior inputs cs) = 1%R.
Proof. exact nb_priors. Qed.
Print Assumptions C34_priors.
Theorem C34_gaussian : forall (inputs targets : matrix R) (cs : list nat),
  mwf targets -> nrows targets = nrows inputs -> labelled targets cs ->
  forall m : NaiveBayes R (Gauss R), (forall c, In c cs -> 2 <= count_occ Nat.eq_dec cs c) ->
  exists m' p, nb_train Gaussian m inputs targets = (m', Ok tt) /\ nb_cluster_count m' = Some (mcols targets) /\
    nb_class_prior m' = Some (map (prior inputs cs) (seq 0 (mcols targets))) /\ nb_distr m' = Some p /\
    (forall c j, In c cs -> j < mcols inputs -> entry (g_theta p) c j = cls_mean inputs cs c j /\ entry (g_sigma p) c j = cls_var inputs cs c j) /\
    forall M, mwf M -> mcols M = mcols inputs -> exists lp, get_log_probs Gaussian m' M = Ok lp /\ mwf lp /\ nrows lp = nrows M /\ mcols lp = mcols targets /\
      forall i c, i < nrows M -> In c cs -> (forall j, j < mcols inputs -> (0 < cls_var inputs cs c j)%R) ->
        entry lp i c = gauss_ll inputs cs c (nth i (mrows M) []).
Proof. exact gauss_fit. Qed.
Print Assumptions C34_gaussian.
Theorem C34_bernoulli : forall (inputs targets : matrix R) (cs : list nat),
  mwf targets -> nrows targets = nrows inputs -> labelled targets cs ->
  forall m : NaiveBayes R (Smooth R), (forall i j, i < nrows inputs -> j < mcols inputs -> (0 <= entry inputs i j <= 1)%R) ->
  exists m' p, nb_train Bernoulli m inputs targets = (m', Ok tt) /\ nb_cluster_count m' = Some (mcols targets) /\
    nb_class_prior m' = Some (map (prior inputs cs) (seq 0 (mcols targets))) /\ nb_distr m' = Some p /\
    (forall c j, In c cs -> j < mcols inputs -> exp (entry (s_log_probs p) c j) = bern_p inputs cs c j /\ (0 < bern_p inputs cs c j < 1)%R) /\
    forall M, mwf M -> mcols M = mcols inputs -> exists lp, get_log_probs Bernoulli m' M = Ok lp /\ mwf lp /\ nrows lp = nrows M /\ mcols lp = mcols targets /\
      forall i c, i < nrows M -> In c cs -> entry lp i c = bern_ll inputs cs c (nth i (mrows M) []).
Proof. exact bernoulli_fit. Qed.
Print Assumptions C34_bernoulli.
Theorem C34_multinomial : forall (inputs targets : matrix R) (cs : list nat),
  mwf targets -> nrows targets = nrows inputs -> labelled targets cs ->
  forall m : NaiveBayes R (Smooth R), (forall i j, i < nrows inputs -> j < mcols inputs -> (0 <= entry inputs i j)%R) ->
  exists m' p, nb_train Multinomial m inputs targets = (m', Ok tt) /\ nb_cluster_count m' = Some (mcols targets) /\
    nb_class_prior m' = Some (map (prior inputs cs) (seq 0 (mcols targets))) /\ nb_distr m' = Some p /\
    (forall c, In c cs -> (forall j, j < mcols inputs -> exp (entry (s_log_probs p) c j) = mult_p inputs cs c j /\ (0 < mult_p inputs cs c j)%R) /\
       (0 < mcols inputs -> sumR (mcols inputs) (mult_p inputs cs c) = 1%R)) /\
    forall M, mwf M -> mcols M = mcols inputs -> exists lp, get_log_probs Multinomial m' M = Ok lp /\ mwf lp /\ nrows lp = nrows M /\ mcols lp = mcols targets /\
      forall i c, i < nrows M -> In c cs -> entry lp i c = mult_ll inputs cs c (nth i (mrows M) []).
Proof. exact multinomial_fit. Qed.
Print Assumptions C34_multinomial.
Example C34_ex : mwf ex_targets /\ nrows ex_targets = nrows ex_inputs /\ labelled ex_targets ex_cs /\ 0 < nrows ex_inputs /\
  (forall c, In c ex_cs -> 2 <= count_occ Nat.eq_dec ex_cs c) /\ cls_var ex_inputs ex_cs 1 0 = (1 / 2)%R.
Proof.
  split; [repeat constructor|]. split; [reflexivity|]. split; [exact ex_labelled|]. split; [cbn; lia|]. split; [|apply ex_var; lia].
  intros c [<-|[<-|[<-|[<-|[]]]]]; cbn; lia.
Qed.

(** C35: in arithmetic with infinities and NaN, Multinomial only ever answers classes it has seen. *)
Theorem C35_multinomial : forall (inputs : matrix R) (targets : matrix X) (cs : list nat),
  mwf targets -> nrows targets = nrows inputs -> labelled targets cs -> 0 < nrows inputs ->
  forall (m : NaiveBayes X (Smooth X)) (M : matrix R), mwf M -> mcols M = mcols inputs ->
  (forall i j, i < nrows inputs -> j < mcols inputs -> (0 <= entry inputs i j)%R) ->
  exists m' out, nb_train Multinomial m (inj inputs) targets = (m', Ok tt) /\ nb_predict Multinomial m' (inj M) = Ok out /\
    nrows out = nrows M /\ mcols out = mcols targets /\
    forall i, i < nrows M -> exists c, In c cs /\ nth i (mrows out) [] = one_hot (mcols targets) c.
Proof. exact multinomial_seen. Qed.
Print Assumptions C35_multinomial.
(** Gaussian and Bernoulli answer class 0 although no training row has it. *)
Theorem C35_refuted_gaussian_bernoulli :
  exists (inputs M : matrix R) (targets : matrix X) cs,
    0 < nrows inputs /\ mwf targets /\ nrows targets = nrows inputs /\ labelled targets cs /\ ~ In 0 cs /\ nrows M = 1 /\
    (exists m' out, nb_train Gaussian nb_new (inj inputs) targets = (m', Ok tt) /\ nb_predict Gaussian m' (inj M) = Ok out /\
       mrows out = [one_hot (mcols targets) 0]) /\
    (exists m' out, nb_train Bernoulli nb_new (inj inputs) targets = (m', Ok tt) /\ nb_predict Bernoulli m' (inj M) = Ok out /\
       mrows out = [one_hot (mcols targets) 0]).
Proof. exact unseen_zero_wins. Qed.
Print Assumptions C35_refuted_gaussian_bernoulli.
Example C35_ex : let targets := Mat [[Fin 0; Fin 1]; [Fin 0; Fin 1]] 2 in labelled targets [1; 1] /\ mwf targets.
Proof. split; [exact label_X1|repeat constructor]. Qed.

(** C70: what Gaussian and Bernoulli do instead: an unseen class 0 is always answered, any other
    unseen class never. *)
Theorem C70_gaussian : forall (inputs : matrix R) (targets : matrix X) (cs : list nat),
  mwf targets -> nrows targets = nrows inputs -> labelled targets cs -> 0 < nrows inputs ->
  forall (m : NaiveBayes X (Gauss X)) (M : matrix R), (forall c, In c cs -> 2 <= count_occ Nat.eq_dec cs c) ->
  mwf M -> mcols M = mcols inputs -> 0 < mcols inputs ->
  exists m', nb_train Gaussian m (inj inputs) targets = (m', Ok tt) /\
  exists out, nb_predict Gaussian m' (inj M) = Ok out /\ nrows out = nrows M /\ mcols out = mcols targets /\
    forall i, i < nrows M ->
      (forall c, 0 < c < mcols targets -> ~ In c cs -> nth c (nth i (mrows out) []) (Fin 0) = Fin 0) /\
      (~ In 0 cs -> nth i (mrows out) [] = one_hot (mcols targets) 0).
Proof. exact gauss_nan. Qed.
Print Assumptions C70_gaussian.
Theorem C70_bernoulli : forall (inputs : matrix R) (targets : matrix X) (cs : list nat),
  mwf targets -> nrows targets = nrows inputs -> labelled targets cs -> 0 < nrows inputs ->
  forall (m : NaiveBayes X (Smooth X)) (M : matrix R),
  mwf M -> mcols M = mcols inputs -> 0 < mcols inputs ->
  (forall i j, i < nrows M -> j < mcols M -> (0 <= entry M i j)%R) ->
  exists m', nb_train Bernoulli m (inj inputs) targets = (m', Ok tt) /\
  exists out, nb_predict Bernoulli m' (inj M) = Ok out /\ nrows out = nrows M /\ mcols out = mcols targets /\
    forall i, i < nrows M ->
      (forall c, 0 < c < mcols targets -> ~ In c cs -> nth c (nth i (mrows out) []) (Fin 0) = Fin 0) /\
      (~ In 0 cs -> nth i (mrows out) [] = one_hot (mcols targets) 0).
Proof. exact bernoulli_nan. Qed.
Print Assumptions C70_bernoulli.
Example C70_ex : let targets := Mat [[Fin 0; Fin 1]; [Fin 0; Fin 1]] 2 in
  mwf targets /\ labelled targets [1; 1] /\ ~ In 0 [1; 1] /\ forall c, In c [1; 1] -> 2 <= count_occ Nat.eq_dec [1; 1] c.
Proof.
  split; [repeat constructor|]. split; [exact label_X1|]. split; [cbn; intuition discriminate|].
  intros c [<-|[<-|[]]]; cbn; lia.
Qed.
