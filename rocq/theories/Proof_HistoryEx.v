(** * Histories: principal component analysis, cross validation, and the models that remember *)
From Coq Require Import List Arith Lia Bool Reals Lra ZArith.
From Verif Require Import Base BaseLemmas Num NumFn Linalg LinalgR Spec_Calc CalcR Model_Rand Model_Cost Model_Toolkit Model_Optim Model_NaiveBayes
  Model_PCA Spec_PCA Proof_PCA Proof_PCA2 Model_GMM Proof_GMM Proof_GMM4 Proof_GMMEx Model_NNet Spec_NNet Proof_NNet Proof_NNet2 Proof_NNet5 Proof_NNetEx
  Model_KNN Model_DBSCAN Spec_DBSCAN Proof_DBSCANEx Proof_PCAEx Model_CrossVal Spec_CrossVal Proof_CrossVal Model_History Spec_History Proof_History.
Import ListNotations.

(** ** Principal component analysis: only earlier wide data is remembered *)
Section PCA.
  Context {F : Type} {N : Num F}.
  Lemma pca_train_ext svd (m1 m2 m' : PCA F) X : pca_n m1 = pca_n m2 -> pca_center m1 = pca_center m2 ->
    (pca_center m1 = false -> pca_centers m1 = pca_centers m2) -> (pca_inv m1 = pca_inv m2 \/ wide X) ->
    pca_train svd m1 X = (m', Ok tt) -> pca_train svd m2 X = (m', Ok tt).
  Proof.
    intros En Ec Es Ei H. unfold pca_train in *. rewrite <- En, <- Ec. destruct (match pca_n m1 with None => _ | Some _ => _ end); [discriminate|].
    destruct (pca_center m1) eqn:Ecc.
    - cbv beta iota zeta in *. cbn [pca_n pca_center pca_n_features pca_centers pca_components pca_inv] in *.
      destruct (rbind _ _) as [v|k|]; try discriminate.
      destruct (match pca_n m1 with None => _ | Some _ => _ end); try discriminate. rewrite <- H. f_equal. f_equal.
      destruct (nrows X <? mcols X)%nat eqn:W; [reflexivity|]. destruct Ei as [Ei|Ei]; [now rewrite Ei|]. apply Nat.ltb_ge in W. unfold wide in Ei. lia.
    - cbv beta iota zeta in *. rewrite Ecc in H. rewrite <- En, <- Ec, <- (Es eq_refl).
      destruct (rbind _ _) as [v|k|]; try discriminate.
      destruct (match pca_n m1 with None => _ | Some _ => _ end); try discriminate. rewrite <- H. f_equal. f_equal.
      destruct (nrows X <? mcols X)%nat eqn:W; [reflexivity|]. destruct Ei as [Ei|Ei]; [now rewrite Ei|]. apply Nat.ltb_ge in W. unfold wide in Ei. lia.
  Qed.
  Lemma pca_train_keeps svd (m m' : PCA F) X : pca_train svd m X = (m', Ok tt) ->
    pca_n m' = pca_n m /\ pca_center m' = pca_center m /\ (pca_center m = false -> pca_centers m' = pca_centers m) /\ (~ wide X -> pca_inv m' = pca_inv m).
  Proof.
    unfold pca_train. destruct (match pca_n m with None => _ | Some _ => _ end); [discriminate|]. intros H.
    assert (W : ~ wide X -> (nrows X <? mcols X)%nat = false) by (intros Hw; apply Nat.ltb_ge; unfold wide in Hw; lia).
    destruct (pca_center m) eqn:Ec.
    - cbv beta iota zeta in H. cbn [pca_n pca_center pca_n_features pca_centers pca_components pca_inv] in H.
      destruct (rbind _ _) as [v|k|]; try discriminate. destruct (match pca_n m with None => _ | Some _ => _ end); try discriminate.
      injection H as <-. cbn [pca_n pca_center pca_n_features pca_centers pca_components pca_inv]. split; [reflexivity|]. split; [reflexivity|]. split; [discriminate|]. intros Hw. now rewrite (W Hw).
    - cbv beta iota zeta in H. destruct (rbind _ _) as [v|k|]; try discriminate.
      destruct (match pca_n m with None => _ | Some _ => _ end); try discriminate.
      injection H as <-. cbn [pca_n pca_center pca_n_features pca_centers pca_components pca_inv]. split; [reflexivity|]. split; [exact Ec|]. split; [reflexivity|]. intros Hw. now rewrite (W Hw).
  Qed.
  Theorem pca_replaced svd (start m : PCA F) hs : history (pca_trains svd) start hs m ->
    forall X m', (forall T, In (T, Ok tt) hs -> ~ wide T) \/ wide X -> pca_trains svd m X m' (Ok tt) <-> pca_trains svd start X m' (Ok tt).
  Proof.
    intros Hh. assert (I : pca_n m = pca_n start /\ pca_center m = pca_center start /\ (pca_center start = false -> pca_centers m = pca_centers start) /\
      ((forall T, In (T, Ok tt) hs -> ~ wide T) -> pca_inv m = pca_inv start)).
    { induction Hh as [|hs m d m' r Hh IH HT Hr]; [auto|]. destruct IH as (I1 & I2 & I3 & I4). destruct r as [[]|k|]; [|destruct (pca_train_failed _ _ _ _ _ HT) as (-> & _)|contradiction].
      - destruct (pca_train_keeps _ _ _ _ HT) as (J1 & J2 & J3 & J4). rewrite J1, J2. split; [exact I1|]. split; [exact I2|]. split.
        + intros E. rewrite J3 by congruence. auto.
        + intros Hw. rewrite J4 by (apply Hw; apply in_or_app; right; left; reflexivity). apply I4. intros T HI. apply Hw. apply in_or_app. now left.
      - split; [exact I1|]. split; [exact I2|]. split; [exact I3|]. intros Hw. apply I4. intros T HI. apply Hw. apply in_or_app. now left. }
    destruct I as (I1 & I2 & I3 & I4). intros X m' HX. unfold pca_trains. split; apply pca_train_ext; auto.
    - intros E. apply I3. congruence.
    - destruct HX as [HX|HX]; [left; auto|right; exact HX].
    - intros E. symmetry. auto.
    - destruct HX as [HX|HX]; [left; symmetry; auto|right; exact HX].
  Qed.
End PCA.

(** ** Cross validation of models that are replaced by retraining *)
Lemma validated_replaced {M X Y F : Type} (train : M -> list X -> list Y -> res unit * M) predict (score : list Y -> list Y -> res F) inputs targets ps m0 m cs m' hs :
  replaced_by_retraining (fun m d m' r => train m (fst d) (snd d) = (r, m')) m0 ->
  history (fun m d m' r => train m (fst d) (snd d) = (r, m')) m0 hs m ->
  validated train predict score inputs targets ps m (Ok cs) m' -> Forall2 (split_score train predict score inputs targets m0) ps cs.
Proof.
  intros HR Hh H. remember (Ok cs) as r eqn:Er. revert hs cs Hh Er. induction H; intros hs cs0 Hh Er.
  - inversion Er; constructor.
  - inversion Er; subst. constructor.
    + exists xtr, ytr, xte, yte, m1, out. cbn [fst snd]. repeat split; auto. apply (HR hs m Hh (xtr, ytr) m1). assumption.
    + apply (IHvalidated (hs ++ [((xtr, ytr), Ok tt)])); auto. apply (H_call _ m0 hs m (xtr, ytr)); [assumption|assumption|discriminate].
  - subst. destruct H7 as [?|[? ?]]; discriminate.
  - destruct H2 as [-> | ->]; discriminate.
  - destruct H4 as [-> | ->]; discriminate.
  - destruct H6 as [-> | ->]; discriminate.
Qed.
Theorem folds_independent {M X Y F : Type} (train : M -> list X -> list Y -> res unit * M) predict (score : list Y -> list Y -> res F) inputs targets ps m0 cs m' :
  replaced_by_retraining (fun m d m' r => train m (fst d) (snd d) = (r, m')) m0 ->
  validated train predict score inputs targets ps m0 (Ok cs) m' -> Forall2 (split_score train predict score inputs targets m0) ps cs.
Proof. intros HR. apply (validated_replaced train predict score inputs targets ps m0 m0 cs m' []); [exact HR|constructor]. Qed.
Theorem knn_folds_independent {F} (w : nat) se (score : list nat -> list nat -> res F) inputs targets ps (m0 : KNNClassifier (option (matrix F))) cs m' :
  validated (knn_fold_train brute_builder w) (knn_fold_predict se w) score inputs targets ps m0 (Ok cs) m' ->
  Forall2 (split_score (knn_fold_train brute_builder w) (knn_fold_predict se w) score inputs targets m0) ps cs.
Proof.
  apply folds_independent.
  apply (replaced_by _ (fun m => knn_k _ m)).
  - intros m d m1 r H _. unfold knn_fold_train in H. destruct (knn_train _ _ _ _) as [c o] eqn:E. injection H as -> ->.
    destruct (knn_cases _ _ _ _ _ _ E) as [[_ (s & _ & ->)]|[_ ->]]; reflexivity.
  - intros m1 m2 d m1' E. unfold knn_fold_train, knn_train. rewrite E. destruct (negb _); [discriminate|]. destruct (_ <? _); [discriminate|]. auto.
Qed.

Local Open Scope R_scope.
(** ** Neural networks *)
Theorem fresh_net_predicts rng x s (c : Criterion R) a net : net_mlp rng (x :: s) c a = Ok net -> forall X, mwf X -> mcols X = x -> exists P, net_predict net X = Ok P.
Proof.
  intros E X W EX. destruct (mlp_ok rng x s c a) as (net' & E' & L & _ & LW). assert (net' = net) by congruence. subst net'.
  eexists. apply (predict_rows net _ X (last (x :: s) 0%nat) L LW W). rewrite EX. apply mlp_widths.
Qed.
Definition gd1 : GradientDesc R := {| gd_alpha := 1 / 4; gd_iters := 1 |}.
Definition netw (w : R) : BaseNeuralNet R := set_weights (net1 RegNone) [w].
Definition X11 : matrix R := Mat [[1]] 1.
Lemma netw_grad w v : exists c, net_compute_grad (netw v) [w] X11 X1 = Ok (c, [w]) /\ c = w * w / 2.
Proof.
  eexists. split; [unfold net_compute_grad; cbn; repeat f_equal; ring|]. field_simplify; try lra. 
Qed.
Lemma eps_small : learning_eps (F := R) < 1 / 100.
Proof. unfold learning_eps. cbn -[Rdiv]. lra. Qed.
(** One round of gradient descent with rate 1/4 multiplies the weight by 3/4. *)
Lemma netw_train w : 1 / 2 <= w -> net_train (gd_as_optimizer gd1) (netw w) X11 X1 = RRet (netw (3 / 4 * w)).
Proof.
  intros Hw. destruct (netw_grad w w) as (c & E & Hc). unfold net_train, gd_as_optimizer, gd_optimize. cbn [gd_iters gd1 gd_alpha gd_loop].
  change (nn_weights (netw w)) with [w]. rewrite E. cbn [rbind].
  assert (L : nltb (nabs (nsub nzero c)) (learning_eps (F := R)) = false).
  { change ((if Rlt_dec (Rabs (0 - c)) learning_eps then true else false) = false). destruct (Rlt_dec _ _) as [B|]; [exfalso|reflexivity].
    pose proof eps_small. assert (1 / 8 <= c) by (subst c; nra). rewrite Rminus_0_l, Rabs_Ropp, Rabs_right in B by lra. lra. }
  rewrite L. replace (3 / 4 * w) with (w - w * (1 / 4)) by field. reflexivity.
Qed.
Lemma netw_predict w : net_predict (netw w) X11 = Ok (Mat [[w]] 1).
Proof. change (Ok (mat_mul X11 (Mat [[w]] 1)) = Ok (Mat [[w]] 1)). f_equal. unfold mat_mul, transpose, col, dot. cbn. unfold vsum. cbn. f_equal. f_equal. f_equal. ring. Qed.
Theorem net_remembers : exists m1 m2, outcome (net_train (gd_as_optimizer gd1) (netw 1) X11 X1) (Some m1) /\ outcome (net_train (gd_as_optimizer gd1) m1 X11 X1) (Some m2) /\
  net_predict m1 X11 = Ok (Mat [[3 / 4]] 1) /\ net_predict m2 X11 = Ok (Mat [[9 / 16]] 1).
Proof.
  exists (netw (3 / 4 * 1)), (netw (3 / 4 * (3 / 4 * 1))). rewrite !netw_train by lra. split; [constructor|]. split; [constructor|].
  rewrite !netw_predict. split; do 4 f_equal; field.
Qed.
Definition fold_train := net_fold_train 1 1 (gd_as_optimizer gd1).
Definition fold_predict := net_fold_predict (F := R) 1.
Definition fold_score (o t : list (list R)) : res R := neg_mean_squared_error (Mat o 1) (Mat t 1).
Lemma fold_train_w w : 1 / 2 <= w -> fold_train (netw w) [[1]] [[0]] = (Ok tt, netw (3 / 4 * w)).
Proof. intros H. unfold fold_train, net_fold_train. change (Mat [[1]] 1) with X11. change (Mat [[0]] 1) with X1. now rewrite netw_train. Qed.
Lemma fold_predict_w w : fold_predict (netw w) [[1]] = Ok [[w]].
Proof. unfold fold_predict, net_fold_predict. change (Mat [[1]] 1) with X11. now rewrite netw_predict. Qed.
Lemma fold_score_w w : fold_score [[w]] [[0]] = Ok (- (w * w)).
Proof. unfold fold_score, neg_mean_squared_error, mse_cost. cbn. f_equal. field. Qed.
Theorem net_folds_depend : exists cs m' ps, outcome (k_fold_validate fold_train fold_predict fold_score (netw 1) [[1]; [1]] [[0]; [0]] 2) (Some (Ok cs, m')) /\
  kfold_partition 2 2 ps /\ validated fold_train fold_predict fold_score [[1]; [1]] [[0]; [0]] ps (netw 1) (Ok cs) m' /\
  (forall cs', Forall2 (split_score fold_train fold_predict fold_score [[1]; [1]] [[0]; [0]] (netw 1)) ps cs' -> cs' = [- (9 / 16); - (9 / 16)]) /\
  cs = [- (9 / 16); - (81 / 256)].
Proof.
  assert (V : forall a b : nat, (a < 2)%nat -> (b < 2)%nat -> validated fold_train fold_predict fold_score [[1]; [1]] [[0]; [0]] [([a], [b]); ([b], [a])] (netw 1)
    (Ok [- (3 / 4 * 1 * (3 / 4 * 1)); - (3 / 4 * (3 / 4 * 1) * (3 / 4 * (3 / 4 * 1)))]) (netw (3 / 4 * (3 / 4 * 1)))).
  { assert (RA : forall (y : list R) a, (a < 2)%nat -> rows_at [y; y] [a] [y]).
    { intros y a Ha. constructor; [|constructor]. destruct a as [|[|a]]; [reflexivity|reflexivity|lia]. }
    intros a b Ha Hb.
    eapply v_cons; try (apply RA; assumption); [apply fold_train_w; lra|apply fold_predict_w|apply fold_score_w|].
    eapply v_cons; try (apply RA; assumption); [apply fold_train_w; lra|apply fold_predict_w|apply fold_score_w|]. constructor. }
  assert (U : forall a b cs', (a < 2)%nat -> (b < 2)%nat -> Forall2 (split_score fold_train fold_predict fold_score [[1]; [1]] [[0]; [0]] (netw 1)) [([a], [b]); ([b], [a])] cs' ->
    cs' = [- (9 / 16); - (9 / 16)]).
  { assert (RA : forall (y : list R) a l, (a < 2)%nat -> rows_at [y; y] [a] l -> l = [y]).
    { intros y a l Ha H. inversion H as [|? ? ? ? H1 H2]; subst. inversion H2; subst. destruct a as [|[|a]]; cbn in H1; [congruence|congruence|lia]. }
    assert (S1 : forall a b c, (a < 2)%nat -> (b < 2)%nat -> split_score fold_train fold_predict fold_score [[1]; [1]] [[0]; [0]] (netw 1) ([a], [b]) c -> c = - (9 / 16)).
    { intros a b c Ha Hb (xtr & ytr & xte & yte & m1 & out & H1 & H2 & H3 & H4 & H5 & H6 & H7). cbn [fst snd] in *.
      apply RA in H1; [|assumption]. apply RA in H2; [|assumption]. apply RA in H3; [|assumption]. apply RA in H4; [|assumption]. subst.
      rewrite fold_train_w in H5 by lra. injection H5 as <-. rewrite fold_predict_w in H6. injection H6 as <-. rewrite fold_score_w in H7. injection H7 as <-. field. }
    intros a b cs' Ha Hb H. inversion H as [|? ? ? ? H1 H2]; subst. inversion H2 as [|? ? ? ? H3 H4]; subst. inversion H4; subst.
    apply S1 in H1; [|assumption|assumption]. apply S1 in H3; [|assumption|assumption]. now subst. }
  eexists. eexists. exists [([1%nat], [0%nat]); ([0%nat], [1%nat])]. split; [|split; [|split; [apply V; lia|split; [intros; eapply (U 1%nat 0%nat); eauto|]]]].
  - unfold k_fold_validate. cbn [length Nat.eqb].
    change (outcome (let! shuffled := in_place_fisher_yates [0%nat; 1%nat] in match folds shuffled 2 with Ok ps => RRet (kfold_loop fold_train fold_predict fold_score [[1]; [1]] [[0]; [0]] ps (netw 1)) | _ => RPanic end)
      (Some (Ok [- (3 / 4 * 1 * (3 / 4 * 1)); - (3 / 4 * (3 / 4 * 1) * (3 / 4 * (3 / 4 * 1)))], netw (3 / 4 * (3 / 4 * 1))))).
    unfold in_place_fisher_yates. cbn [length rnd_for in_place_body rnd_bind gen_range].
    apply out_gen with 0%nat; [lia|]. cbn [rnd_bind swap nth_error upd rnd_opt Nat.add]. apply out_gen with 0%nat; [lia|].
    cbn [rnd_bind swap nth_error upd rnd_opt Nat.add].
    change (folds [0%nat; 1%nat] 2) with (Ok [([1%nat], [0%nat]); ([0%nat], [1%nat])]). cbv iota beta.
    cbn [kfold_loop Model_CrossVal.select_rows rmap ridx nth_error rbind]. rewrite fold_train_w by lra. rewrite fold_predict_w, fold_score_w.
    rewrite fold_train_w by lra. rewrite fold_predict_w, fold_score_w. constructor.
  - destruct (folds_spec [0%nat; 1%nat] 2 2 (Permutation.Permutation_refl _)) as [H _]. destruct (H ltac:(lia)) as (ps & E & HP).
    change (folds [0%nat; 1%nat] 2) with (Ok [([1%nat], [0%nat]); ([0%nat], [1%nat])]) in E. injection E as <-. exact HP.
  - f_equal; [field|]. f_equal. field.
Qed.
(** ** Naive Bayes: a failed call replaces the probabilities *)
Definition NBX : matrix R := Mat [[1; 0]; [0; 1]; [0; 1]] 2.
Definition NBT : matrix R := Mat [[1; 0]; [0; 1]; [0; 1]] 2.
Definition NBq : matrix R := Mat [[1; 0]] 2.
Definition nb_state (a b c d : R) : NaiveBayes R (Smooth R) :=
  {| nb_distr := Some {| s_log_probs := Mat [[a; b]; [c; d]] 2 |}; nb_cluster_count := Some 2%nat; nb_class_prior := Some [1 / 3; 2 / 3]; nb_class_counts := [1; 2]%nat |}.
Lemma neqb_refl_R : neqb (1 : R) 1 = true.
Proof. cbn. destruct (Req_EM_T 1 1); [reflexivity|lra]. Qed.
Lemma neqb_01_R : neqb (0 : R) 1 = false.
Proof. cbn. destruct (Req_EM_T 0 1); [lra|reflexivity]. Qed.
Lemma nb_train1 : nb_train Multinomial nb_new NBX NBT = (nb_state (ln 2 - ln 3) (ln 1 - ln 3) (ln 1 - ln 4) (ln 3 - ln 4), Ok tt).
Proof.
  unfold nb_train. change (mrows NBT) with [[1; 0]; [0; 1]; [0; 1]].
  assert (E : find_classes [[1; 0]; [0; 1]; [0; 1]] = ([0; 1; 1]%nat, Ok tt)).
  { cbn [find_classes find_class]. change (@nonev R _) with 1. now rewrite neqb_refl_R, neqb_01_R. }
  rewrite E. cbn. unfold nb_state. f_equal. f_equal; [|f_equal; f_equal; [|f_equal]; field].
  do 2 f_equal. f_equal. unfold col_sums, vsum, col. cbn. f_equal; [|f_equal]; f_equal; try f_equal; f_equal; try f_equal; try (f_equal; ring); ring.
Qed.
Lemma nb_train_fails m : nb_train Multinomial m NBq (Mat [[0; 0]] 2) =
  ({| nb_distr := Some {| s_log_probs := Mat [[0; 0]; [0; 0]] 2 |}; nb_cluster_count := nb_cluster_count m; nb_class_prior := nb_class_prior m; nb_class_counts := [0; 0]%nat |}, Err InvalidState).
Proof.
  unfold nb_train. cbn [mrows find_classes find_class]. change (@nonev R _) with 1. rewrite neqb_01_R. reflexivity.
Qed.
Lemma nb_scores a b c d k : nb_predict Multinomial {| nb_distr := Some {| s_log_probs := Mat [[a; b]; [c; d]] 2 |}; nb_cluster_count := Some 2%nat; nb_class_prior := Some [1 / 3; 2 / 3]; nb_class_counts := k |} NBq =
  Ok (Mat [if Rlt_dec (a + ln (1 / 3)) (c + ln (2 / 3)) then [0; 1] else [1; 0]] 2).
Proof.
  unfold nb_predict, get_log_probs. cbn [nb_distr nb_class_prior Multinomial d_joint].
  assert (E : smooth_joint multinomial_score {| s_log_probs := Mat [[a; b]; [c; d]] 2 |} NBq [1 / 3; 2 / 3] = Ok (Mat [[a + ln (1 / 3); c + ln (2 / 3)]] 2)).
  { unfold smooth_joint, multinomial_score. cbn. unfold dot, vsum. cbn. do 2 f_equal. f_equal. f_equal; [ring|f_equal; ring]. }
  rewrite E. cbn [rbind]. unfold get_classes. cbn [mrows rmap argmax argbest rbind].
  change (nltb (a + ln (1 / 3)) (c + ln (2 / 3))) with (if Rlt_dec (a + ln (1 / 3)) (c + ln (2 / 3)) then true else false).
  destruct (Rlt_dec _ _); reflexivity.
Qed.
Theorem nb_failure_harms : exists m1 m2 T k, nb_train Multinomial nb_new NBX NBT = (m1, Ok tt) /\ nb_train Multinomial m1 NBq T = (m2, Err k) /\
  nb_predict Multinomial m1 NBq = Ok (Mat [[1; 0]] 2) /\ nb_predict Multinomial m2 NBq = Ok (Mat [[0; 1]] 2).
Proof.
  eexists. eexists. exists (Mat [[0; 0]] 2), InvalidState. split; [exact nb_train1|]. split; [apply nb_train_fails|].
  unfold nb_state. cbn [nb_cluster_count nb_class_prior]. rewrite !nb_scores. rewrite ln_1, !Rplus_0_l, Rminus_0_l.
  assert (E3 : ln (1 / 3) = - ln 3) by (unfold Rdiv; rewrite Rmult_1_l; apply ln_Rinv; lra).
  assert (E23 : ln (2 / 3) = ln 2 - ln 3) by (unfold Rdiv; rewrite ln_mult, ln_Rinv by lra; ring).
  assert (E4 : ln 4 = ln 2 + ln 2) by (rewrite <- ln_mult by lra; f_equal; ring).
  assert (L23 : ln 3 < ln 4) by (apply ln_increasing; lra). assert (L2 : 0 < ln 2) by (rewrite <- ln_1; apply ln_increasing; lra).
  split; destruct (Rlt_dec _ _) as [B|B]; try reflexivity; exfalso; lra.
Qed.
(** ** Gaussian mixtures: the weights of the previous training are the starting weights of the next *)
Definition gmm_p (c m x : R) : R := exp (((x - m) * / c * (x - m)) * - (1 / 2)) / sqrt c.
Lemma gmm_row2 (self : GMM R) w0 w1 m0 m1 c x : gmm_comp_count self = 2%nat -> gmm_mix_weights self = [w0; w1] ->
  gmm_row self (Mat [[m0]; [m1]] 1) [(c, Mat [[/ c]] 1); (c, Mat [[/ c]] 1)] [x] =
  Ok ([w0 * gmm_p c m0 x / (gmm_p c m0 x * w0 + gmm_p c m1 x * w1); w1 * gmm_p c m1 x / (gmm_p c m0 x * w0 + gmm_p c m1 x * w1)],
      gmm_p c m0 x * w0 + gmm_p c m1 x * w1).
Proof.
  intros E1 E2. unfold gmm_row. rewrite E1, E2.
  assert (P : forall j m, nth_error [[m0]; [m1]] j = Some [m] -> gmm_pdf (Mat [[m0]; [m1]] 1) [(c, Mat [[/ c]] 1); (c, Mat [[/ c]] 1)] [x] j = Ok (gmm_p c m x)).
  { intros j m Hj. assert (Hl : (j < 2)%nat) by (change 2%nat with (length [[m0]; [m1]]); apply nth_error_Some; congruence).
    unfold gmm_pdf, ridx. cbn [mrows]. rewrite Hj. cbn [rbind]. change (rvsub [x] [m]) with (Ok [x - m]). cbn [rbind].
    assert (Hd : nth_error [(c, Mat [[/ c]] 1); (c, Mat [[/ c]] 1)] j = Some (c, Mat [[/ c]] 1)) by (destruct j as [|[|j]]; [reflexivity|reflexivity|lia]).
    rewrite Hd. cbn [rbind fst snd]. cbn. unfold gmm_p. do 4 f_equal. unfold dot, vsum. cbn. ring. }
  cbn [seq rmap]. rewrite (P 0%nat m0), (P 1%nat m1) by reflexivity. cbn [rbind].
  change (dot [gmm_p c m0 x; gmm_p c m1 x] [w0; w1]) with (vsum [gmm_p c m0 x * w0; gmm_p c m1 x * w1]).
  assert (V : forall a b : R, vsum [a; b] = a + b) by (intros; unfold vsum; cbn; ring). rewrite V. reflexivity.
Qed.
Lemma lupR_c c : c <> 0 -> lupR (Mat [[c]] 1) = Ok (c, Mat [[/ c]] 1).
Proof. intros H. unfold lupR. cbn [mrows]. destruct (Req_EM_T c 0); [contradiction|reflexivity]. Qed.
Lemma mixw2 : gmm_mix_weights (gmm_new (F := R) 2) = [1 / 2; 1 / 2].
Proof. reflexivity. Qed.
Definition D004 : matrix R := Mat [[0]; [0]; [4]] 1.
Definition Dpm : matrix R := Mat [[-1]; [1]] 1.
Definition Q0 : matrix R := Mat [[0]] 1.
Lemma cov004 self : gmm_cov_option self = CovFull -> initialize_covariances self D004 (1 / 2) = Mat [[16 / 3]] 1.
Proof. intros E. unfold initialize_covariances. rewrite E. unfold col_mean, vsum, col, mmap. cbn. do 3 f_equal. field. Qed.
Lemma covpm self : gmm_cov_option self = CovFull -> initialize_covariances self Dpm (1 / 1) = Mat [[2]] 1.
Proof. intros E. unfold initialize_covariances. rewrite E. unfold col_mean, vsum, col, mmap. cbn. do 3 f_equal. field. Qed.
Definition w_after : R := (2 + exp (- (3 / 2))) / (3 * (1 + exp (- (3 / 2)))).
Lemma w_after_not_half : 1 / 2 < w_after < 1.
Proof.
  pose proof (exp_pos (- (3 / 2))). assert (exp (- (3 / 2)) < 1) by (rewrite <- exp_0; apply exp_increasing; lra).
  unfold w_after. set (e := exp (- (3 / 2))) in *. split; apply Rmult_lt_reg_r with (3 * (1 + e)); try lra;
    replace ((2 + e) / (3 * (1 + e)) * (3 * (1 + e))) with (2 + e) by (field; lra); lra.
Qed.
Lemma gmm_first : exists m1, outcome (gmm_train lupR (gmm_set_max_iters (gmm_new 2) 1) D004) (Some (m1, Ok tt)) /\ gmm_mix_weights m1 = [w_after; 1 - w_after] /\
  gmm_comp_count m1 = 2%nat /\ gmm_cov_option m1 = CovFull.
Proof.
  unfold gmm_train. change (negb (1 <? nrows D004)%nat) with false. cbv iota zeta.
  change (ndiv (nonev (F := R)) (nofnat (nrows D004 - 1))) with (1 / 2). rewrite cov004 by reflexivity.
  change (gmm_comp_count (gmm_set_max_iters (gmm_new (F := R) 2) 1)) with 2%nat. change (gmm_max_iters (gmm_set_max_iters (gmm_new (F := R) 2) 1)) with 1%nat.
  set (st := set_start (gmm_set_max_iters (gmm_new 2) 1) (Mat [[0]; [4]] 1) (repeat (Mat [[16 / 3]] 1) 2)).
  set (c := 16 / 3). set (e := exp (- (3 / 2))). set (s := sqrt c).
  assert (Hs : 2 <= s). { unfold s, c. replace 2 with (sqrt 4) by (replace 4 with (2 * 2) by ring; apply sqrt_square; lra). apply sqrt_le_1_alt. lra. }
  assert (He : 0 < e < 1). { unfold e. split; [apply exp_pos|]. rewrite <- exp_0. apply exp_increasing. lra. }
  assert (P1 : forall x, gmm_p c x x = 1 / s). { intros x. unfold gmm_p. replace (((x - x) * / c * (x - x)) * - (1 / 2)) with 0 by (unfold c; field). rewrite exp_0. reflexivity. }
  assert (P2 : forall x y, (x - y) * (x - y) = 16 -> gmm_p c y x = e / s).
  { intros x y Hxy. unfold gmm_p. replace (((x - y) * / c * (x - y)) * - (1 / 2)) with (- (3 / 2)); [reflexivity|].
    replace ((x - y) * / c * (x - y)) with ((x - y) * (x - y) * / c) by ring. rewrite Hxy. unfold c. field. }
  assert (E : membership_weights lupR st D004 = Ok (Mat [[/ (1 + e); e / (1 + e)]; [/ (1 + e); e / (1 + e)]; [e / (1 + e); / (1 + e)]] 2, 3 * ln ((1 + e) / (2 * s)))).
  { unfold membership_weights. change (gmm_covars st) with (Some [Mat [[c]] 1; Mat [[c]] 1]). change (gmm_means st) with (Some (Mat [[0]; [4]] 1)).
    cbn [rmap]. rewrite lupR_c by (unfold c; lra). cbn [rbind]. change (mrows D004) with [[0]; [0]; [4]]. cbn [rmap].
    rewrite !(gmm_row2 st (1 / 2) (1 / 2)) by reflexivity. cbn [rbind map fst snd].
    rewrite !P1, (P2 0 4), (P2 4 0) by ring. f_equal. f_equal.
    - f_equal. f_equal; [|f_equal; [|f_equal]]; (f_equal; [field; lra|f_equal; field; lra]).
    - unfold vsum. cbn [fold_left]. change (nln (F := R)) with ln. change (nadd (F := R)) with Rplus. change (nzero (F := R)) with 0.
      replace (1 / s * (1 / 2) + e / s * (1 / 2)) with ((1 + e) / (2 * s)) by (field; lra). replace (e / s * (1 / 2) + 1 / s * (1 / 2)) with ((1 + e) / (2 * s)) by (field; lra). ring. }
  assert (LL : ln ((1 + e) / (2 * s)) <= - (1 / 2)).
  { assert (Y : 0 < (1 + e) / (2 * s) <= 1 / 2).
    { split; [apply Rdiv_lt_0_compat; lra|]. apply Rmult_le_reg_r with (2 * s); [lra|]. unfold Rdiv. rewrite Rmult_assoc, Rinv_l by lra. lra. }
    assert (I : ln ((1 + e) / (2 * s)) <= (1 + e) / (2 * s) - 1).
    { pose proof (exp_ineq1_le (ln ((1 + e) / (2 * s)))) as H. rewrite exp_ln in H by lra. lra. }
    lra. }
  exists (update_params (set_log_lik st (3 * ln ((1 + e) / (2 * s)))) D004 (Mat [[/ (1 + e); e / (1 + e)]; [/ (1 + e); e / (1 + e)]; [e / (1 + e); / (1 + e)]] 2)).
  split; [|split; [|split; reflexivity]].
  - change (reservoir_sample (seq 0 (nrows D004)) 2) with (reservoir_loop 2 2 [2%nat] [0%nat; 1%nat]).
    cbn [reservoir_loop reservoir_round rnd_bind gen_range]. apply out_gen with 1%nat; [lia|]. cbn [Nat.ltb Nat.leb upd rnd_opt rnd_bind].
    change (rows_opt (mrows D004) [0%nat; 2%nat]) with (Some [[0]; [4]]). cbn [rnd_opt rnd_bind]. match goal with |- outcome (RRet ?x) _ => change x with (em_loop lupR 1 st D004) end.
    cbn [em_loop]. rewrite E.
    assert (B : nltb (nabs (nsub (3 * ln ((1 + e) / (2 * s))) (gmm_log_lik st))) (ndiv nonev (pow10 15)) = false).
    { change ((if Rlt_dec (Rabs (3 * ln ((1 + e) / (2 * s)) - 0)) (1 / pow10 15) then true else false) = false).
      destruct (Rlt_dec _ _) as [B|]; [exfalso|reflexivity]. rewrite Rminus_0_r, Rabs_left in B by lra. revert B. cbn -[Rdiv]. lra. }
    rewrite B. constructor.
  - unfold update_params. cbn [gmm_mix_weights nrows mrows length mcols seq map]. unfold col, vsum, w_after. fold e. cbn. f_equal; [|f_equal]; field; lra.
Qed.
Lemma gmm_second (m : GMM R) w : gmm_comp_count m = 2%nat -> gmm_cov_option m = CovFull -> gmm_mix_weights m = [w; 1 - w] ->
  exists m', outcome (gmm_train lupR (gmm_set_max_iters m 0) Dpm) (Some (m', Ok tt)) /\ gmm_predict lupR m' Q0 = Ok (Mat [[w; 1 - w]] 2).
Proof.
  intros E1 E2 E3. exists (set_start (gmm_set_max_iters m 0) Dpm [Mat [[2]] 1; Mat [[2]] 1]). split.
  - unfold gmm_train. change (negb (1 <? nrows Dpm)%nat) with false. cbv iota zeta.
    change (ndiv (nonev (F := R)) (nofnat (nrows Dpm - 1))) with (1 / 1). rewrite covpm by exact E2.
    change (gmm_comp_count (gmm_set_max_iters m 0)) with (gmm_comp_count m). rewrite E1.
    change (reservoir_sample (seq 0 (nrows Dpm)) 2) with (RRet [0%nat; 1%nat]). cbn [rnd_bind]. change (rows_opt (mrows Dpm) [0%nat; 1%nat]) with (Some [[-1]; [1]]).
    cbn [rnd_opt rnd_bind]. constructor.
  - unfold gmm_predict. set (s := set_start _ _ _). change (gmm_means s) with (Some Dpm). change (gmm_covars s) with (Some [Mat [[2]] 1; Mat [[2]] 1]). cbv iota.
    unfold membership_weights. change (gmm_means s) with (Some Dpm). change (gmm_covars s) with (Some [Mat [[2]] 1; Mat [[2]] 1]). cbn [rmap].
    rewrite lupR_2. cbn [rbind]. change (mrows Q0) with [[0]]. cbn [rmap]. unfold Dpm.
    rewrite (gmm_row2 s w (1 - w)) by (first [exact E1|exact E3]). cbn [rbind map fst snd].
    change (gmm_comp_count s) with (gmm_comp_count m). rewrite E1.
    assert (P : gmm_p 2 (-1) 0 = gmm_p 2 1 0) by (unfold gmm_p; do 2 f_equal; field).
    assert (PP : 0 < gmm_p 2 1 0) by (unfold gmm_p; apply Rdiv_lt_0_compat; [apply exp_pos|apply sqrt_lt_R0; lra]).
    rewrite P. do 3 f_equal. f_equal; [|f_equal]; field; lra.
Qed.
Theorem gmm_remembers : exists m1 m2 m3 w, outcome (gmm_train lupR (gmm_set_max_iters (gmm_new 2) 1) D004) (Some (m1, Ok tt)) /\
  outcome (gmm_train lupR (gmm_set_max_iters m1 0) Dpm) (Some (m2, Ok tt)) /\
  outcome (gmm_train lupR (gmm_set_max_iters (gmm_new 2) 0) Dpm) (Some (m3, Ok tt)) /\
  gmm_predict lupR m2 Q0 = Ok (Mat [[w; 1 - w]] 2) /\ gmm_predict lupR m3 Q0 = Ok (Mat [[1 / 2; 1 - 1 / 2]] 2) /\ 1 / 2 < w.
Proof.
  destruct gmm_first as (m1 & H1 & HW & HC & HO). destruct (gmm_second m1 w_after HC HO HW) as (m2 & H2 & P2).
  destruct (gmm_second (gmm_new 2) (1 / 2) eq_refl eq_refl) as (m3 & H3 & P3). { rewrite mixw2. f_equal. f_equal. field. }
  exists m1, m2, m3, w_after. split; [exact H1|]. split; [exact H2|]. split; [exact H3|]. split; [exact P2|]. split; [exact P3|]. exact (proj1 w_after_not_half).
Qed.

(** ** DBSCAN: the rows of a training before the last one *)
Definition quiet (b : list Z) : list (db_op NumF.B64) := [OpPredictive false; OpTrain (zmat b); OpPredictive true].
Theorem dbscan_remembers : exists m1 m2, db_run model0 (stale [50; 60]%Z) = Some m1 /\ db_run model0 (quiet [50; 60]%Z) = Some m2 /\
  dbscan_predict m1 (zmat [0]%Z) = Ok [Some 0%nat] /\ dbscan_predict m2 (zmat [0]%Z) = Err UntrainedModel.
Proof.
  destruct stale_label as (m1 & H1 & P1 & _).
  assert (Q : option_map (fun m => dbscan_predict m (zmat [0]%Z)) (db_run model0 (quiet [50; 60]%Z)) = Some (Err UntrainedModel)) by (vm_compute; reflexivity).
  destruct (db_run model0 (quiet [50; 60]%Z)) as [m2|] eqn:E; [|discriminate]. exists m1, m2. split; [exact H1|]. split; [reflexivity|]. split; [exact P1|]. cbn in Q. congruence.
Qed.

Theorem pca_remembers : exists m1 m2 m3, pca_train svd_ex (pca_new 3 false) W1 = (m1, Ok tt) /\ pca_train svd_ex m1 A3 = (m2, Ok tt) /\
  pca_train svd_ex (pca_new 3 false) A3 = (m3, Ok tt) /\
  pca_predict m3 (Mat [[1; 2; 3]] 3) = Ok (Mat [[2; 3; 1]] 3) /\ pca_predict m2 (Mat [[1; 2; 3]] 3) = Ok (Mat [[3; 1; 2]] 3).
Proof.
  exists after_W1, after_W1_A3, after_A3. split; [exact (proj1 train_W1)|]. split; [exact train_W1_A3|]. split; [exact train_A3|].
  split; [apply predict_A3|apply predict_W1_A3].
Qed.
(** A leave-one-out run of the single nearest neighbour. *)
Lemma knn_fold_ex : exists m', validated (knn_fold_train brute_builder 1) (knn_fold_predict (brute_search (F := R)) 1) (fun o t => Ok (INR (hd O o) - INR (hd O t)))
  [[0]; [4]] [5; 6]%nat [([1], [0]); ([0], [1])]%nat {| knn_k := 1; knn_searcher := None; knn_target := None |} (Ok [INR 6 - INR 5; INR 5 - INR 6]) m'.
Proof.
  eexists.
  eapply v_cons with (xtr := [[4]]) (ytr := [6]%nat) (xte := [[0]]) (yte := [5%nat]); try (repeat constructor; reflexivity); try reflexivity.
  eapply v_cons with (xtr := [[0]]) (ytr := [5]%nat) (xte := [[4]]) (yte := [6%nat]); try (repeat constructor; reflexivity); try reflexivity.
Qed.
Definition knn_fresh : KNNClassifier (option (matrix R)) := {| knn_k := 2; knn_searcher := None; knn_target := None |}.
Definition knn_data : matrix R := Mat [[1]; [2]] 1.
