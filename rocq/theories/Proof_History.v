(** * Histories of training calls *)
From Coq Require Import List Arith Lia Bool.
From Verif Require Import Base BaseLemmas Num NumFn Linalg Model_KNN Model_KMeans Model_DBSCAN Model_NaiveBayes Model_Optim
  Model_Regression Model_GLM Model_Kernel Model_GP Model_SVM Model_PCA Spec_PCA Proof_PCA Model_GMM Proof_GMM4 Model_NNet Model_History Spec_History.
Import ListNotations.

Section Generic.
  Context {M D Q A : Type} (train : M -> D -> M -> res unit -> Prop) (predict : M -> Q -> res A).
  (** A state property kept by failing calls holds until the first success. *)
  Lemma refuses_by (start : M) (I : M -> Prop) : I start -> (forall m d m' k, I m -> train m d m' (Err k) -> I m') ->
    (forall m q, I m -> predict m q = Err UntrainedModel) -> refuses_until_trained train predict start.
  Proof.
    intros H0 HS HP hs m Hh Hf q. apply HP. induction Hh as [|hs m d m' r Hh IH HT Hr]; [exact H0|].
    apply Forall_app in Hf. destruct Hf as [Hf Hl]. inversion Hl as [|? ? [k Hk] ?]; subst. cbn in Hk. subst r.
    exact (HS _ _ _ _ (IH Hf) HT).
  Qed.
  Lemma invariant (start : M) (I : M -> Prop) : I start -> (forall m d m' r, I m -> train m d m' r -> r <> Panic -> I m') ->
    forall hs m, history train start hs m -> I m.
  Proof. intros H0 HS hs m Hh. induction Hh; eauto. Qed.
  Lemma survives_by (start : M) : (forall m d m' k, train m d m' (Err k) -> m' = m) -> survives_failure train predict start.
  Proof. intros H hs m _ d m' k HT q. now rewrite (H _ _ _ _ HT). Qed.
  (** Training depends on the state only through [conf], which it keeps. *)
  Lemma replaced_by {C} (conf : M -> C) (start : M) : (forall m d m' r, train m d m' r -> r <> Panic -> conf m' = conf m) ->
    (forall m1 m2 d m', conf m1 = conf m2 -> train m1 d m' (Ok tt) -> train m2 d m' (Ok tt)) -> replaced_by_retraining train start.
  Proof.
    intros HC HT hs m Hh d m'. assert (E : conf m = conf start).
    { induction Hh; [reflexivity|]. rewrite <- IHHh. eauto. }
    split; apply HT; auto.
  Qed.
End Generic.

Section Models.
  Context {F : Type} {N : Num F} {NF : NumFn F}.

  (** ** k nearest neighbours *)
  Lemma knn_cases {S} (sb : S -> matrix F -> res S) c X T c' r : knn_train sb c X T = (c', r) ->
    (r = Ok tt /\ exists s, sb (knn_searcher _ c) X = Ok s /\ c' = {| knn_k := knn_k _ c; knn_searcher := s; knn_target := Some T |}) \/ (r <> Ok tt /\ c' = c).
  Proof.
    unfold knn_train. intros H. destruct (negb _); [injection H as <- <-; right; now split|].
    destruct (_ <? _); [injection H as <- <-; right; now split|].
    destruct (sb _ X); injection H as <- <-; [left; eauto|right; now split|right; now split].
  Qed.
  Theorem knn_refuses {S} (sb : S -> matrix F -> res S) (se : S -> list F -> nat -> res (list nat * list F)) k s :
    refuses_until_trained (knn_trains sb) (knn_predict se) {| knn_k := k; knn_searcher := s; knn_target := None |}.
  Proof.
    apply (refuses_by _ _ _ (fun m => knn_target _ m = None)); [reflexivity| |].
    - intros m d m' e H HT. destruct (knn_cases _ _ _ _ _ _ HT) as [[? _]|[_ ->]]; [discriminate|exact H].
    - intros m q H. unfold knn_predict. now rewrite H.
  Qed.
  Theorem knn_survives {S} (sb : S -> matrix F -> res S) (se : S -> list F -> nat -> res (list nat * list F)) start : survives_failure (knn_trains sb) (knn_predict se) start.
  Proof. apply survives_by. intros m d m' k HT. destruct (knn_cases _ _ _ _ _ _ HT) as [[? _]|[_ ->]]; [discriminate|reflexivity]. Qed.
  Lemma knn_replaced {S C} (conf : S -> C) (sb : S -> matrix F -> res S) start : (forall s X s', sb s X = Ok s' -> conf s' = conf s) ->
    (forall s1 s2 X, conf s1 = conf s2 -> sb s1 X = sb s2 X) -> replaced_by_retraining (knn_trains sb) start.
  Proof.
    intros H1 H2. apply (replaced_by _ (fun m => (knn_k _ m, conf (knn_searcher _ m)))).
    - intros m d m' r HT _. destruct (knn_cases _ _ _ _ _ _ HT) as [[_ (s & E & ->)]|[_ ->]]; [|reflexivity]. cbn. now rewrite (H1 _ _ _ E).
    - intros m1 m2 d m' E. apply pair_equal_spec in E. destruct E as [Ek Ec]. unfold knn_trains, knn_train. rewrite (H2 _ _ (fst d) Ec), Ek.
      destruct (negb _); [discriminate|]. destruct (_ <? _); [discriminate|]. destruct (sb _ _); now try discriminate.
  Qed.
  Theorem brute_replaced start : replaced_by_retraining (knn_trains (brute_builder (F := F))) start.
  Proof. now apply (knn_replaced (fun _ => tt)). Qed.
  Theorem tree_replaced {G} (B : @BinarySplit F G) fuel start : replaced_by_retraining (knn_trains (tree_builder B fuel)) start.
  Proof.
    apply (knn_replaced fst).
    - intros s X s'. unfold tree_builder. destruct (tree_build _ _ _ _) as [[|?|]|]; try discriminate. now intros [= <-].
    - intros s1 s2 X E. unfold tree_builder. now rewrite E.
  Qed.

  (** ** k-means *)
  Lemma lloyd_no_err (tol : F) k X n : forall cost c e, lloyd tol k X n cost c <> Err e.
  Proof.
    assert (R : forall (A B : Type) (f : A -> res B) l e, (forall a e', f a <> Err e') -> rmap f l <> Err e).
    { intros A B f l e Hf. induction l as [|a l IH]; [discriminate|]. cbn. specialize (Hf a). destruct (f a); cbn; [|now intros [= ->]; eapply Hf|discriminate].
      destruct (rmap f l); cbn; [discriminate| |discriminate]. intros [= ->]. now apply IH. }
    induction n as [|n IH]; intros cost c e; [discriminate|]. cbn [lloyd]. unfold find_closest_centroids.
    destruct (rmap (closest c (mcols X)) (mrows X)) as [ps|e'|] eqn:E1; cbn [rbind]; [| |discriminate].
    2:{ exfalso. revert E1. apply R. intros a e''. unfold closest, rassert. destruct (_ =? _); [|discriminate]. destruct (map _ _); discriminate. }
    unfold update_centroids. destruct (rmap _ (seq 0 k)) as [cs|e'|] eqn:E2; cbn [rbind]; [| |discriminate].
    2:{ exfalso. revert E2. apply R. intros a e''. unfold select_rows. destruct (rows_opt _ _); cbn; discriminate. }
    destruct (nltb _ _); [discriminate|apply IH].
  Qed.
  Lemma km_cases (tol : F) a m X m' r : km_train tol a m X = (m', r) ->
    (r = Ok tt /\ exists c, m' = km_set m c) \/ (exists k, r = Err k /\ m' = m) \/ r = Panic.
  Proof.
    unfold km_train. destruct (init_centroids m X a) as [c0|e|]; [|intros [= <- <-]; right; left; eauto|intros [= <- <-]; auto].
    destruct (lloyd _ _ _ _ _ _) eqn:E; intros [= <- <-]; [left; eauto| |auto]. now apply lloyd_no_err in E.
  Qed.
  Theorem km_refuses (tol : F) init k iters : refuses_until_trained (km_trains tol init) km_predict (km_new k iters).
  Proof.
    apply (refuses_by _ _ _ (fun m => km_centroids m = None)); [reflexivity| |].
    - intros m d m' e H (a & _ & HT). destruct (km_cases _ _ _ _ _ _ HT) as [[? _]|[(k' & _ & ->)|?]]; [discriminate|exact H|discriminate].
    - intros m q H. unfold km_predict. now rewrite H.
  Qed.
  Theorem km_survives (tol : F) init start : survives_failure (km_trains tol init) km_predict start.
  Proof.
    apply survives_by. intros m d m' k (a & _ & HT).
    destruct (km_cases _ _ _ _ _ _ HT) as [[? _]|[(k' & _ & ->)|?]]; [discriminate|reflexivity|discriminate].
  Qed.
  Theorem km_replaced (tol : F) init start : replaced_by_retraining (km_trains tol init) start.
  Proof.
    apply (replaced_by _ (fun m => (km_k m, km_iters m))).
    - intros m d m' r (a & _ & HT) Hr. destruct (km_cases _ _ _ _ _ _ HT) as [[_ (c & ->)]|[(k' & _ & ->)|?]]; [reflexivity|reflexivity|contradiction].
    - intros m1 m2 d m' E (a & Ha & HT). apply pair_equal_spec in E. destruct E as [Ek Ei]. exists a. rewrite <- Ek. split; [exact Ha|].
      revert HT. unfold km_train, init_centroids. rewrite <- Ek, <- Ei.
      destruct (if _ <? _ then _ else _); try discriminate. destruct (lloyd _ _ _ _ _ _); try discriminate.
      intros HT. rewrite <- HT. unfold km_set. now rewrite Ek, Ei.
  Qed.

  (** ** DBSCAN *)
  Theorem db_refuses (eps : F) mp m0 : dbscan_new eps mp = Ok m0 -> refuses_until_trained db_trains dbscan_predict (set_predictive m0 true).
  Proof.
    unfold dbscan_new, rassert. destruct (nltb _ _); [|discriminate]. intros [= <-].
    apply (refuses_by _ _ _ (fun m => m = set_predictive {| db_eps := eps; db_min_points := mp; db_clusters := None; db_predictive := false; db_cluster_data := None |} true)).
    - reflexivity.
    - intros m d m' k _ [? _]. discriminate.
    - intros m q ->. reflexivity.
  Qed.
  Theorem db_mode_off (eps : F) mp m X : dbscan_new eps mp = Ok m -> dbscan_predict m X = Err InvalidState.
  Proof. unfold dbscan_new, rassert. destruct (nltb _ _); [|discriminate]. now intros [= <-]. Qed.
  Theorem db_survives (start : DBSCAN F) : survives_failure db_trains dbscan_predict start.
  Proof. apply survives_by. intros m d m' k [? _]. discriminate. Qed.
  (** With the mode left alone between the calls. *)
  Theorem db_replaced (start : DBSCAN F) : replaced_by_retraining db_trains start.
  Proof.
    apply (replaced_by _ (fun m => (db_eps m, db_min_points m, db_predictive m, if db_predictive m then None else db_cluster_data m))).
    - intros m d m' r (_ & fuel & HT) _. unfold dbscan_train in HT. destruct (clustering _ _ _ _) as [[w c]|]; [|discriminate].
      injection HT as <-. cbn. destruct (db_predictive m); reflexivity.
    - intros m1 m2 d m' E (_ & fuel & HT). split; [reflexivity|]. exists fuel. revert HT.
      assert (E1 := f_equal (fun x => fst (fst (fst x))) E). assert (E2 := f_equal (fun x => snd (fst (fst x))) E).
      assert (E3 := f_equal (fun x => snd (fst x)) E). assert (E4 := f_equal snd E). cbn in E1, E2, E3, E4. clear E.
      unfold dbscan_train. rewrite <- E1, <- E2, <- E3. rewrite <- E3 in E4. destruct (clustering _ _ _ _) as [[w c]|]; [|discriminate].
      intros H. rewrite <- H. destruct (db_predictive m1); [reflexivity|]. now rewrite E4.
  Qed.

  (** ** Naive Bayes *)
  Lemma nb_cases {P} (D : Distribution P) (m : NaiveBayes F P) X T m' r : nb_train D m X T = (m', r) ->
    r = Ok tt \/ nb_class_prior m' = nb_class_prior m.
  Proof.
    unfold nb_train. destruct (find_classes _) as [cs o]. destruct o as [[]|k|].
    - destruct (update_classes _ _ _ _ _) as [p' o']. destruct o' as [[]|k|]; intros [= <- <-]; auto.
    - intros [= <- <-]; auto.
    - intros [= <- <-]; auto.
  Qed.
  Theorem nb_refuses {P} (D : Distribution P) : refuses_until_trained (nb_trains D) (nb_predict D) (nb_new (F := F)).
  Proof.
    apply (refuses_by _ _ _ (fun m => nb_class_prior m = None)); [reflexivity| |].
    - intros m d m' e H HT. destruct (nb_cases _ _ _ _ _ _ HT) as [?| ->]; [discriminate|exact H].
    - intros m q H. unfold nb_predict, get_log_probs. rewrite H. now destruct (nb_distr m).
  Qed.
  Theorem nb_replaced {P} (D : Distribution P) (start : NaiveBayes F P) : replaced_by_retraining (nb_trains D) start.
  Proof.
    apply (replaced_by _ (fun _ => tt)); [reflexivity|]. intros m1 m2 d m' _. unfold nb_trains, nb_train.
    destruct (find_classes _) as [cs o]. destruct o as [[]|k|]; try discriminate.
    destruct (update_classes _ _ _ _ _) as [p' o']. now destruct o' as [[]|k|].
  Qed.

  (** ** Linear, logistic and generalised linear regression *)
  Lemma lr_cases solve (m : LinRegressor F) d m' r : lr_trains solve m d m' r -> r = Ok tt \/ m' = m.
  Proof.
    intros [H|H]; revert H; [unfold lr_train; destruct (rbind _ _)|unfold lr_train_with_optimization; destruct (gd_optimize _ _ _)];
      intros [= <- <-]; auto.
  Qed.
  Theorem lr_refuses solve : refuses_until_trained (lr_trains solve) lr_predict (lr_default (F := F)).
  Proof.
    apply (refuses_by _ _ _ (fun m => lr_parameters m = None)); [reflexivity| |].
    - intros m d m' e H HT. destruct (lr_cases _ _ _ _ _ HT) as [?| ->]; [discriminate|exact H].
    - intros m q H. unfold lr_predict. now rewrite H.
  Qed.
  Theorem lr_survives solve (start : LinRegressor F) : survives_failure (lr_trains solve) lr_predict start.
  Proof. apply survives_by. intros m d m' k HT. destruct (lr_cases _ _ _ _ _ HT) as [?|]; [discriminate|assumption]. Qed.
  Theorem lr_replaced solve (start : LinRegressor F) : replaced_by_retraining (lr_trains solve) start.
  Proof.
    apply (replaced_by _ (fun _ => tt)); [reflexivity|]. intros m1 m2 d m' _ [H|H]; [left|right]; revert H.
    - unfold lr_train. now destruct (rbind _ _).
    - unfold lr_train_with_optimization. now destruct (gd_optimize _ _ _).
  Qed.
  Lemma log_cases optimize (m : LogisticRegressor F) d m' r : log_trains optimize m d m' r -> r = Ok tt \/ m' = m.
  Proof. unfold log_trains, log_train. destruct (optimize _ _); intros [= <- <-]; auto. Qed.
  Theorem log_refuses optimize : refuses_until_trained (log_trains optimize) log_predict (log_new (F := F)).
  Proof.
    apply (refuses_by _ _ _ (fun m => log_parameters m = None)); [reflexivity| |].
    - intros m d m' e H HT. destruct (log_cases _ _ _ _ _ HT) as [?| ->]; [discriminate|exact H].
    - intros m q H. unfold log_predict. now rewrite H.
  Qed.
  Theorem log_survives optimize (start : LogisticRegressor F) : survives_failure (log_trains optimize) log_predict start.
  Proof. apply survives_by. intros m d m' k HT. destruct (log_cases _ _ _ _ _ HT) as [?|]; [discriminate|assumption]. Qed.
  Theorem log_replaced optimize (start : LogisticRegressor F) : replaced_by_retraining (log_trains optimize) start.
  Proof.
    apply (replaced_by _ (fun _ => tt)); [reflexivity|]. intros m1 m2 d m' _. unfold log_trains, log_train. now destruct (optimize _ _).
  Qed.
  Lemma glm_cases inverse cr (m : GenLinearModel F) d m' r : glm_trains inverse cr m d m' r -> r = Ok tt \/ m' = m.
  Proof. unfold glm_trains, glm_train. destruct (negb _); [intros [= <- <-]; auto|]. destruct (glm_loop _ _ _ _ _ _ _ _); intros [= <- <-]; auto. Qed.
  Theorem glm_refuses inverse cr : refuses_until_trained (glm_trains inverse cr) (glm_predict cr) (glm_new (F := F)).
  Proof.
    apply (refuses_by _ _ _ (fun m => glm_parameters m = None)); [reflexivity| |].
    - intros m d m' e H HT. destruct (glm_cases _ _ _ _ _ _ HT) as [?| ->]; [discriminate|exact H].
    - intros m q H. unfold glm_predict. now rewrite H.
  Qed.
  Theorem glm_survives inverse cr (start : GenLinearModel F) : survives_failure (glm_trains inverse cr) (glm_predict cr) start.
  Proof. apply survives_by. intros m d m' k HT. destruct (glm_cases _ _ _ _ _ _ HT) as [?|]; [discriminate|assumption]. Qed.
  Theorem glm_replaced inverse cr (start : GenLinearModel F) : replaced_by_retraining (glm_trains inverse cr) start.
  Proof.
    apply (replaced_by _ (fun _ => tt)); [reflexivity|]. intros m1 m2 d m' _. unfold glm_trains, glm_train.
    destruct (negb _); [discriminate|]. now destruct (glm_loop _ _ _ _ _ _ _ _).
  Qed.

  (** ** Gaussian processes *)
  Lemma gp_cases ker mean ch sl su (m : GaussianProcess F) d m' r : gp_trains ker mean ch sl su m d m' r ->
    gp_noise m' = gp_noise m /\ (r = Ok tt \/ m' = m).
  Proof.
    unfold gp_trains, gp_train. set (x := rbind _ _). destruct x as [[? ?]|k|]; intros [= <- <-]; auto.
  Qed.
  Theorem gp_refuses ker mean ch sl su (noise : F) : refuses_until_trained (gp_trains ker mean ch sl su) (gp_predict ker mean) (gp_new noise).
  Proof.
    apply (refuses_by _ _ _ (fun m => gp_alpha m = None)); [reflexivity| |].
    - intros m d m' e H HT. destruct (gp_cases _ _ _ _ _ _ _ _ _ HT) as [_ [?| ->]]; [discriminate|exact H].
    - intros m q H. unfold gp_predict. now rewrite H.
  Qed.
  Theorem gp_posterior_refuses ker mean ch sl su (noise : F) : refuses_until_trained (gp_trains ker mean ch sl su) (gp_get_posterior ker mean sl) (gp_new noise).
  Proof.
    apply (refuses_by _ _ _ (fun m => gp_alpha m = None)); [reflexivity| |].
    - intros m d m' e H HT. destruct (gp_cases _ _ _ _ _ _ _ _ _ HT) as [_ [?| ->]]; [discriminate|exact H].
    - intros m q H. unfold gp_get_posterior. rewrite H. now destruct (gp_train_mat m).
  Qed.
  Theorem gp_survives ker mean ch sl su (start : GaussianProcess F) : survives_failure (gp_trains ker mean ch sl su) (gp_predict ker mean) start.
  Proof. apply survives_by. intros m d m' k HT. destruct (gp_cases _ _ _ _ _ _ _ _ _ HT) as [_ [?|]]; [discriminate|assumption]. Qed.
  Theorem gp_replaced ker mean ch sl su (start : GaussianProcess F) : replaced_by_retraining (gp_trains ker mean ch sl su) start.
  Proof.
    apply (replaced_by _ gp_noise).
    - intros m d m' r HT _. exact (proj1 (gp_cases _ _ _ _ _ _ _ _ _ HT)).
    - intros m1 m2 d m' E. unfold gp_trains, gp_train. rewrite E. set (x := rbind _ _). now destruct x as [[? ?]|k|].
  Qed.

  (** ** Support vector machines *)
  Theorem svm_refuses ker (lambda : F) iters : refuses_until_trained (svm_trains ker) (svm_predict ker)
    {| svm_alpha := None; svm_train_inputs := None; svm_train_targets := None; svm_lambda := lambda; svm_optim_iters := iters |}.
  Proof.
    eapply (refuses_by _ _ _ (fun m => svm_alpha m = None)); [reflexivity| |].
    - intros m d m' e _ [? _]. discriminate.
    - intros m q H. unfold svm_predict. now rewrite H.
  Qed.
  Theorem svm_survives ker (start : SVM F) : survives_failure (svm_trains ker) (svm_predict ker) start.
  Proof. apply survives_by. intros m d m' k [? _]. discriminate. Qed.
  Lemma svm_body_ext ker (m1 m2 : SVM F) X T : svm_lambda m1 = svm_lambda m2 -> svm_body ker m1 X T = svm_body ker m2 X T.
  Proof. intros E. unfold svm_body. now rewrite E. Qed.
  Theorem svm_replaced ker (start : SVM F) : replaced_by_retraining (svm_trains ker) start.
  Proof.
    apply (replaced_by _ (fun m => (svm_lambda m, svm_optim_iters m))).
    - intros m d m' r (_ & HT) _. unfold svm_train in HT. apply outcome_bind_some in HT. destruct HT as (al & _ & HT). now inversion HT.
    - intros m1 m2 d m' E (_ & HT). apply pair_equal_spec in E. destruct E as [E1 E2]. split; [reflexivity|]. revert HT.
      unfold svm_train. now rewrite (svm_body_ext ker _ _ (with_ones (fst d)) (snd d) E1), E1, E2.
  Qed.

  (** ** Principal component analysis *)
  Theorem pca_refuses svd (start : PCA F) : start = pca_default \/ (exists n c, start = pca_new n c) -> refuses_until_trained (pca_trains svd) pca_predict start.
  Proof.
    intros H0. apply (refuses_by _ _ _ (fun m => pca_n_features m = None)).
    - destruct H0 as [->|(n & c & ->)]; reflexivity.
    - intros m d m' k H HT. now destruct (pca_train_failed _ _ _ _ _ HT) as (-> & _).
    - intros m q H. unfold pca_predict. now rewrite H.
  Qed.
  Theorem pca_components_refuses svd (start : PCA F) : start = pca_default \/ (exists n c, start = pca_new n c) ->
    refuses_until_trained (pca_trains svd) (fun m (_ : unit) => pca_get_components m) start.
  Proof.
    intros H0. apply (refuses_by _ _ _ (fun m => pca_components m = None)).
    - destruct H0 as [->|(n & c & ->)]; reflexivity.
    - intros m d m' k H HT. now destruct (pca_train_failed _ _ _ _ _ HT) as (-> & _).
    - intros m q H. unfold pca_get_components. now rewrite H.
  Qed.
  Theorem pca_survives svd (start : PCA F) : survives_failure (pca_trains svd) pca_predict start.
  Proof. apply survives_by. intros m d m' k HT. now destruct (pca_train_failed _ _ _ _ _ HT) as (-> & _). Qed.

  (** ** Gaussian mixtures *)
  Lemma em_no_err lup X : (forall C k, lup C <> Err k) -> forall n (self self' : GMM F) k, em_loop lup n self X = (self', Err k) -> False.
  Proof.
    intros HL. assert (R : forall (A B : Type) (f : A -> res B) l e, (forall a e', f a <> Err e') -> rmap f l <> Err e).
    { intros A B f l e Hf. induction l as [|a l IH]; [discriminate|]. cbn. specialize (Hf a). destruct (f a); cbn; [|now intros [= ->]; eapply Hf|discriminate].
      destruct (rmap f l); cbn; [discriminate| |discriminate]. intros [= ->]. now apply IH. }
    assert (RI : forall (A : Type) (l : list A) i e, ridx l i <> Err e) by (intros A l i e; unfold ridx; destruct (nth_error l i); discriminate).
    assert (RB : forall (A B : Type) (x : res A) (f : A -> res B) e, (forall e', x <> Err e') -> (forall a e', f a <> Err e') -> rbind x f <> Err e).
    { intros A B x f e Hx Hf. destruct x; cbn; [apply Hf|now intros [= ->]; eapply Hx|discriminate]. }
    assert (RA : forall (A : Type) b (x : res A) e, (forall e', x <> Err e') -> rassert b x <> Err e) by (intros A [] x e Hx; cbn; [apply Hx|discriminate]).
    assert (HM : forall self e, membership_weights lup self X <> Err e).
    { intros self e. unfold membership_weights. apply RB.
      - intros e'. destruct (gmm_covars self); [|discriminate]. apply R. intros C; apply HL.
      - intros dis e'. destruct (gmm_means self) as [means|]; [|apply RA; discriminate].
        apply RB; [|discriminate]. intros e2. apply R. intros x e3. unfold gmm_row. apply RB.
        + intros e4. apply R. intros j e5. unfold gmm_pdf.
          apply RB; [intros; apply RI|]. intros mu e6. apply RB; [intros; apply RA; discriminate|]. intros diff e7.
          apply RB; [intros; apply RB; [intros; apply RI|discriminate]|]. intros [sd inv] e8.
          apply RB; [intros; apply RA; discriminate|]. intros a e9. apply RB; [intros; apply RA; discriminate|]. intros b e10.
          apply RB; [intros; apply RI|]. intros rr e11. apply RB; [intros; apply RI|]. discriminate.
        + intros pdfs e4. apply RB; [|discriminate]. intros e5. apply R. intros idx e6.
          apply RB; [intros; apply RI|]. intros w e7. apply RB; [intros; apply RI|]. discriminate. }
    induction n as [|n IH]; intros self self' k; cbn [em_loop]; [discriminate|].
    destruct (membership_weights lup self X) as [[W ll]|e|] eqn:E; [|now apply HM in E|discriminate].
    destruct (nltb _ _); [discriminate|]. apply IH.
  Qed.
  Lemma gmm_failed lup (m : GMM F) X m' k : (forall C k, lup C <> Err k) -> gmm_trains lup m X m' (Err k) -> m' = m.
  Proof.
    intros HL. unfold gmm_trains, gmm_train. destruct (negb _); [intros H; now inversion H|]. cbv zeta. intros H.
    apply outcome_bind_some in H. destruct H as (rr & _ & H). apply outcome_bind_some in H. destruct H as (rows & _ & H).
    inversion H. exfalso. eapply em_no_err; [exact HL|eassumption].
  Qed.
  Theorem gmm_refuses lup (start : GMM F) : (forall C k, lup C <> Err k) -> gmm_means start = None -> refuses_until_trained (gmm_trains lup) (gmm_predict lup) start.
  Proof.
    intros HL H0. apply (refuses_by _ _ _ (fun m => gmm_means m = None)); [exact H0| |].
    - intros m d m' k H HT. now rewrite (gmm_failed _ _ _ _ _ HL HT).
    - intros m q H. unfold gmm_predict. now rewrite H.
  Qed.
  Theorem gmm_survives lup (start : GMM F) : (forall C k, lup C <> Err k) -> survives_failure (gmm_trains lup) (gmm_predict lup) start.
  Proof. intros HL. apply survives_by. intros m d m' k HT. exact (gmm_failed _ _ _ _ _ HL HT). Qed.

  (** ** Neural networks *)
  Theorem net_survives optimize (start : BaseNeuralNet F) : survives_failure (net_trains optimize) net_predict start.
  Proof. apply survives_by. intros m d m' k [? _]. discriminate. Qed.
  Theorem never_fail : (forall (m : DBSCAN F) d m' k, ~ db_trains m d m' (Err k)) /\ (forall ker (m : SVM F) d m' k, ~ svm_trains ker m d m' (Err k)) /\
    (forall optimize (m : BaseNeuralNet F) d m' k, ~ net_trains optimize m d m' (Err k)).
  Proof. split; [|split]; [intros m d m' k [? _]|intros ker m d m' k [? _]|intros o m d m' k [? _]]; discriminate. Qed.
End Models.
