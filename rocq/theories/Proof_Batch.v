(** Row-by-row prediction: proofs. *)
From Coq Require Import List Arith Lia Bool.
From Verif Require Import Base Num NumFn Linalg NumSign Spec_Batch Model_Toolkit Model_Optim Model_Regression Model_GLM Model_KNN Model_KMeans Model_DBSCAN Model_NaiveBayes
  Model_Kernel Model_GP Model_SVM Model_NNet Model_PCA Model_GMM Model_Transforms Proof_NNet.
Import ListNotations.

Section Gen.
  Context {F : Type}.
  Lemma rmap_iff {A B} (f : A -> res B) l out : rmap f l = Ok out <-> Forall2 (fun a b => f a = Ok b) l out.
  Proof.
    revert out. induction l as [|a l IH]; intros out; cbn.
    - split; [now intros [= <-]|]. intros H. inversion H. reflexivity.
    - destruct (f a) as [b| |] eqn:E; cbn; [|split; [discriminate|intros H; inversion H; congruence]..].
      destruct (rmap f l) as [bs| |] eqn:E2; cbn.
      + split; [intros [= <-]; constructor; [exact E|now apply IH]|]. intros H. inversion H; subst. apply IH in H4. congruence.
      + split; [discriminate|]. intros H. inversion H; subst. apply IH in H4. discriminate.
      + split; [discriminate|]. intros H. inversion H; subst. apply IH in H4. discriminate.
  Qed.
  Lemma Forall2_mono {A B} (P Q : A -> B -> Prop) l m : (forall a b, In a l -> P a b -> Q a b) -> Forall2 P l m -> Forall2 Q l m.
  Proof. intros H G. induction G; constructor; [apply H; [now left|assumption]|apply IHG; intros; apply H; [now right|assumption]]. Qed.
  Lemma Forall2_iff {A B} (P Q : A -> B -> Prop) l m : (forall a b, In a l -> (P a b <-> Q a b)) -> Forall2 P l m <-> Forall2 Q l m.
  Proof. intros H. split; apply Forall2_mono; intros a b Ha; apply H; exact Ha. Qed.
  Lemma Forall2_len {A B} (P : A -> B -> Prop) l m : Forall2 P l m -> length l = length m.
  Proof. intros G. induction G; cbn; congruence. Qed.
  Lemma Forall2_first {A B} (P : A -> B -> Prop) (Q : Prop) l m : 0 < length l -> (forall a b, P a b -> Q) -> Forall2 P l m -> Q.
  Proof. intros L H G. destruct G; [cbn in L; lia|eauto]. Qed.

  (** A check of the width, and one answer per row. *)
  Lemma by_rows' {T} (p : matrix F -> res (list T)) (g : nat -> Prop) (f : nat -> list F -> res T) :
    (forall M out, mwf M -> 0 < nrows M -> (p M = Ok out <-> (g (mcols M) /\ rmap (f (mcols M)) (mrows M) = Ok out))) -> row_by_row p.
  Proof.
    intros H M out W L. rewrite (H M out W L). set (w := mcols M).
    assert (E : forall r y, In r (mrows M) -> p (single_row w r) = Ok [y] <-> (g w /\ f w r = Ok y)).
    { intros r y Hr. rewrite H; [|constructor; [|constructor]; exact (proj1 (Forall_forall _ _) W r Hr)|cbn; lia]. cbn [single_row mcols mrows rmap].
      destruct (f w r); cbn; [|split; [intros [_ ?]; discriminate|intros [_ ?]; discriminate]..].
      split; [intros [? [= ->]]; auto|intros [? [= ->]]; auto]. }
    rewrite (Forall2_iff _ _ _ _ (fun a b Ha => E a b Ha)), rmap_iff. split.
    - intros [G Q]. eapply Forall2_mono; [|exact Q]. auto.
    - intros Q. split; [revert Q; apply Forall2_first; [exact L|]; tauto|]. eapply Forall2_mono; [|exact Q]. intros a b _ [_ ?]. assumption.
  Qed.
  Lemma by_rows {T} (p : matrix F -> res (list T)) (g : nat -> res unit) (f : nat -> list F -> res T) :
    (forall M, mwf M -> p M = (let? u := g (mcols M) in rmap (f (mcols M)) (mrows M))) -> row_by_row p.
  Proof.
    intros H. apply (by_rows' p (fun w => g w = Ok tt) f). intros M out W _. rewrite (H M W).
    destruct (g (mcols M)) as [[]| |]; cbn; [tauto|split; [discriminate|intros [? _]; discriminate]..].
  Qed.
  Lemma by_rows_mat {T} (p : matrix F -> res (matrix T)) (g : nat -> nat -> Prop) (f : nat -> list F -> res (list T)) :
    (forall M out, mwf M -> 0 < nrows M -> (p M = Ok out <-> (g (mcols M) (mcols out) /\ rmap (f (mcols M)) (mrows M) = Ok (mrows out)))) -> row_by_row_mat p.
  Proof.
    intros H M out W L. rewrite (H M out W L). set (w := mcols M).
    assert (E : forall r y, In r (mrows M) -> p (single_row w r) = Ok (single_row (mcols out) y) <-> (g w (mcols out) /\ f w r = Ok y)).
    { intros r y Hr. rewrite H; [|constructor; [|constructor]; exact (proj1 (Forall_forall _ _) W r Hr)|cbn; lia]. cbn [single_row mcols mrows rmap].
      destruct (f w r); cbn; [|split; [intros [_ ?]; discriminate|intros [_ ?]; discriminate]..].
      split; [intros [? [= ->]]; auto|intros [? [= ->]]; auto]. }
    rewrite (Forall2_iff _ _ _ _ (fun a b Ha => E a b Ha)), rmap_iff. split.
    - intros [G Q]. eapply Forall2_mono; [|exact Q]. auto.
    - intros Q. split; [revert Q; apply Forall2_first; [exact L|]; tauto|]. eapply Forall2_mono; [|exact Q]. intros a b _ [_ ?]. assumption.
  Qed.
  Lemma rmap_total {A B} (h : A -> B) l : rmap (fun a => Ok (h a)) l = Ok (map h l).
  Proof. induction l as [|a l IH]; [reflexivity|]. cbn. rewrite IH. reflexivity. Qed.
  Lemma fails_rbr {T} (p : matrix F -> res (list T)) : (forall M, match p M with Ok _ => False | _ => True end) -> row_by_row p.
  Proof.
    intros H M out W L. split; intros Q.
    - specialize (H M). rewrite Q in H. destruct H.
    - exfalso. revert Q. apply Forall2_first; [exact L|]. intros a b Q. specialize (H (single_row (mcols M) a)). rewrite Q in H. exact H.
  Qed.
  Lemma fails_rbr_mat {T} (p : matrix F -> res (matrix T)) : (forall M, match p M with Ok _ => False | _ => True end) -> row_by_row_mat p.
  Proof.
    intros H M out W L. split; intros Q.
    - specialize (H M). rewrite Q in H. destruct H.
    - exfalso. revert Q. apply Forall2_first; [exact L|]. intros a b Q. specialize (H (single_row (mcols M) a)). rewrite Q in H. exact H.
  Qed.
End Gen.

Definition chk (b : bool) : res unit := if b then Ok tt else Panic.

Section Models.
  Context {F : Type} {N : Num F}.

  Lemma knn_rows {S} (se : S -> list F -> nat -> res (list nat * list F)) (c : KNNClassifier S) : row_by_row (knn_predict se c).
  Proof.
    unfold knn_predict. destruct (knn_target S c) as [t|]; [|apply fails_rbr; exact (fun _ => I)].
    eapply (by_rows _ (fun _ => Ok tt) (fun _ => _)). intros M _. reflexivity.
  Qed.
  Lemma km_rows (m : KMeans F) : row_by_row (km_predict m).
  Proof.
    unfold km_predict. destruct (km_centroids m) as [c|]; [|apply fails_rbr; exact (fun _ => I)].
    apply (by_rows _ (fun _ => Ok tt) (fun w r => let? p := closest c w r in Ok (fst p))). intros M _. unfold find_closest_centroids. cbn.
    induction (mrows M) as [|r rs IH]; [reflexivity|]. cbn. destruct (closest c (mcols M) r); cbn; [|reflexivity..].
    revert IH. destruct (rmap (closest c (mcols M)) rs); cbn; intros <-; reflexivity.
  Qed.
  Lemma db_rows (m : DBSCAN F) : row_by_row (dbscan_predict m).
  Proof.
    unfold dbscan_predict. destruct (db_predictive m); [|apply fails_rbr; exact (fun _ => I)].
    destruct (db_cluster_data m) as [D|]; [|apply fails_rbr; exact (fun _ => I)].
    destruct (db_clusters m) as [cl|]; [|apply fails_rbr; exact (fun _ => I)].
    eapply (by_rows _ (fun _ => Ok tt) (fun _ => _)). intros M _. reflexivity.
  Qed.
  Lemma mat_vec_rows (w : list F) (h : F -> F) : row_by_row (fun M => let? z := rmat_vec (with_ones M) w in Ok (map h z)).
  Proof.
    apply (by_rows _ (fun n => chk (S n =? length w)%nat) (fun _ r => Ok (h (dot (nonev :: r) w)))). intros M _. unfold rmat_vec, chk. cbn [mcols with_ones].
    unfold rassert. destruct (S (mcols M) =? length w)%nat; [|reflexivity]. cbn [rbind]. unfold mat_vec, with_ones. cbn [mrows]. rewrite rmap_total, !map_map. reflexivity.
  Qed.
  Lemma rbr_ext {T} (p q : matrix F -> res (list T)) : (forall M, p M = q M) -> row_by_row q -> row_by_row p.
  Proof.
    intros E H M out W L. rewrite E. rewrite (H M out W L). apply Forall2_iff. intros. rewrite E. tauto.
  Qed.
  Lemma lr_rows (m : LinRegressor F) : row_by_row (lr_predict m).
  Proof.
    unfold lr_predict. destruct (lr_parameters m) as [v|]; [|apply fails_rbr; exact (fun _ => I)].
    eapply rbr_ext; [|exact (mat_vec_rows v (fun x => x))]. intros M. cbn. unfold rmat_vec, rassert.
    destruct (_ =? _)%nat; [|reflexivity]. cbn. now rewrite map_id.
  Qed.
  Lemma log_rows {NF : NumFn F} (m : LogisticRegressor F) : row_by_row (log_predict m).
  Proof. unfold log_predict. destruct (log_parameters m) as [v|]; [|apply fails_rbr; exact (fun _ => I)]. exact (mat_vec_rows v sigmoid). Qed.
  Lemma glm_rows (cr : Model_GLM.Criterion F) (m : GenLinearModel F) : row_by_row (glm_predict cr m).
  Proof. unfold glm_predict. destruct (glm_parameters m) as [v|]; [|apply fails_rbr; exact (fun _ => I)]. exact (mat_vec_rows v (lk_inv (cr_link cr))). Qed.

  Lemma rmap_map {A B C} (u : A -> B) (f : B -> res C) l : rmap f (map u l) = rmap (fun a => f (u a)) l.
  Proof. induction l as [|a l IH]; [reflexivity|]. cbn. now rewrite IH. Qed.
  Lemma rmap_zip {A B C} (f : A -> res B) (h : A -> B -> C) l :
    (let? rows := rmap f l in Ok (map2 h l rows)) = rmap (fun a => let? r := f a in Ok (h a r)) l.
  Proof.
    induction l as [|a l IH]; [reflexivity|]. cbn. destruct (f a); cbn; [|reflexivity..]. rewrite <- IH. destruct (rmap f l); reflexivity.
  Qed.
  Lemma rmap_dot {A} (f : A -> res (list F)) (h : list F -> F) l : (let? rows := rmap f l in Ok (map h rows)) = rmap (fun a => let? r := f a in Ok (h r)) l.
  Proof.
    induction l as [|a l IH]; [reflexivity|]. cbn. destruct (f a); cbn; [|reflexivity..]. rewrite <- IH. destruct (rmap f l); reflexivity.
  Qed.
  Lemma svm_rows ker (m : SVM F) : row_by_row (svm_predict ker m).
  Proof.
    unfold svm_predict. destruct (svm_alpha m) as [al|]; [|apply fails_rbr; exact (fun _ => I)].
    destruct (svm_train_inputs m) as [X|]; [|apply fails_rbr; exact (fun _ => I)].
    destruct (svm_train_targets m) as [t|]; [|apply fails_rbr; exact (fun _ => I)].
    set (w := map (fun w => ndiv w (svm_lambda m)) (velemul al t)).
    apply (by_rows' _ (fun n => S n = mcols X /\ length al = length t /\ nrows X = length w)
      (fun _ r => let? k := rmap (fun r2 => ker (nonev :: r) r2) (mrows X) in Ok (nsignum (dot k w)))).
    intros M out _ _. unfold ker_mat. cbn [mcols with_ones mrows]. rewrite <- rmap_dot.
    destruct (Nat.eqb_spec (S (mcols M)) (mcols X)) as [E|E]; cbn [negb]; [|split; [discriminate|tauto]].
    unfold with_ones. cbn [mrows]. rewrite <- (rmap_map (cons nonev) (fun r => rmap (fun r2 => ker r r2) (mrows X))).
    destruct (rmap (fun r => rmap _ (mrows X)) (map (cons nonev) (mrows M))) as [rs| |]; cbn; [|split; [discriminate|intros [_ ?]; discriminate]..].
    unfold rassert. destruct (Nat.eqb_spec (length al) (length t)) as [E2|E2]; [|split; [discriminate|tauto]].
    unfold rmat_vec, rassert. cbn [mcols]. fold w. destruct (Nat.eqb_spec (nrows X) (length w)) as [E3|E3]; cbn; [|split; [discriminate|tauto]].
    unfold mat_vec. cbn [mrows]. rewrite map_map. tauto.
  Qed.
  Lemma gp_rows ker mean (h : list F -> F) (m : GaussianProcess F) : (forall M, mean M = map h (mrows M)) -> row_by_row (gp_predict ker mean m).
  Proof.
    intros Hm. unfold gp_predict. destruct (gp_alpha m) as [al|]; [|apply fails_rbr; exact (fun _ => I)].
    destruct (gp_train_data m) as [X|]; [|apply fails_rbr; exact (fun _ => I)].
    apply (by_rows' _ (fun n => n = mcols X /\ nrows X = length al)
      (fun _ r => let? k := rmap (fun r2 => ker r r2) (mrows X) in Ok (nadd (h r) (dot k al)))).
    intros M out _ _. unfold ker_mat. destruct (Nat.eqb_spec (mcols M) (mcols X)) as [E|E]; cbn [negb]; [|split; [discriminate|tauto]].
    rewrite <- (rmap_zip (fun r => rmap (fun r2 => ker r r2) (mrows X)) (fun r k => nadd (h r) (dot k al))).
    destruct (rmap _ (mrows M)) as [rs| |] eqn:Q; cbn; [|split; [discriminate|intros [_ ?]; discriminate]..].
    unfold rmat_vec, rassert. cbn [mcols]. destruct (Nat.eqb_spec (nrows X) (length al)) as [E3|E3]; cbn; [|split; [discriminate|tauto]].
    unfold rvadd, rassert, mat_vec. cbn [mrows]. rewrite Hm, !map_length. apply rmap_iff, Forall2_len in Q. rewrite <- Q, Nat.eqb_refl.
    unfold vadd. replace (map2 nadd (map h (mrows M)) (map (fun r => dot r al) rs)) with (map2 (fun r k => nadd (h r) (dot k al)) (mrows M) rs); [tauto|].
    revert rs Q. induction (mrows M) as [|r rs0 IH]; intros [|k ks] Q; try discriminate; [reflexivity|]. cbn. f_equal. apply IH. now injection Q.
  Qed.

  Definition joint_rows {P} (D : Distribution P) : Prop := exists (g : P -> list F -> nat -> bool) (f : P -> list F -> list F -> list F),
    forall p data prior, d_joint _ D p data prior = rassert (g p prior (mcols data)) (Ok (Mat (map (f p prior) (mrows data)) (length prior))).
  Lemma rmap_comp {A B C} (f : A -> res B) (g : B -> res C) l out :
    (let? ys := rmap f l in rmap g ys) = Ok out <-> rmap (fun a => let? y := f a in g y) l = Ok out.
  Proof.
    revert out. induction l as [|a l IH]; intros out; cbn; [tauto|].
    destruct (f a) as [b| |]; cbn; [|tauto..].
    destruct (rmap f l) as [ys| |] eqn:E; cbn in *.
    - destruct (g b) as [z| |]; cbn; [|tauto..].
      destruct (rmap g ys) as [zs| |]; cbn; destruct (rmap (fun a0 => let? y := f a0 in g y) l) as [ws| |]; cbn.
      + assert (Q : Ok zs = Ok ws) by (symmetry; now apply IH). injection Q as ->. tauto.
      + assert (Q := proj1 (IH zs) eq_refl). discriminate.
      + assert (Q := proj1 (IH zs) eq_refl). discriminate.
      + assert (Q := proj2 (IH ws) eq_refl). discriminate.
      + split; discriminate.
      + split; discriminate.
      + assert (Q := proj2 (IH ws) eq_refl). discriminate.
      + split; discriminate.
      + split; discriminate.
    - split; [discriminate|]. destruct (g b); cbn; try discriminate. destruct (rmap (fun a0 => let? y := f a0 in g y) l) as [ws| |]; cbn; try discriminate.
      assert (Q := proj2 (IH ws) eq_refl). discriminate.
    - split; [discriminate|]. destruct (g b); cbn; try discriminate. destruct (rmap (fun a0 => let? y := f a0 in g y) l) as [ws| |]; cbn; try discriminate.
      assert (Q := proj2 (IH ws) eq_refl). discriminate.
  Qed.
  Lemma nb_rows {P} (D : Distribution P) (m : NaiveBayes F P) : joint_rows D -> row_by_row_mat (nb_predict D m).
  Proof.
    intros (g & f & HD). unfold nb_predict, get_log_probs. destruct (nb_distr m) as [p|]; [|apply fails_rbr_mat; exact (fun _ => I)].
    destruct (nb_class_prior m) as [pr|]; [|apply fails_rbr_mat; exact (fun _ => I)].
    destruct (nb_cluster_count m) as [k|].
    2: { apply fails_rbr_mat. intros M. destruct (d_joint _ _ _ _ _); cbn; [|exact I..]. destruct (get_classes _); exact I. }
    apply (by_rows_mat _ (fun w c => g p pr w = true /\ c = k) (fun _ r => let? q := (let? a := argmax (f p pr r) in Ok (fst a)) in one_hot_row k q)).
    intros M out _ _. rewrite HD. unfold rassert. destruct (g p pr (mcols M)); cbn [rbind]; [|split; [discriminate|intros [[? _] _]; discriminate]].
    unfold get_classes. cbn [mrows]. rewrite rmap_map, <- rmap_comp.
    destruct (rmap _ (mrows M)) as [cs| |] eqn:E; cbn; [|split; [discriminate|intros [_ ?]; discriminate]..].
    destruct (rmap (one_hot_row k) cs) as [rs| |] eqn:E2; cbn; [|split; [discriminate|intros [_ ?]; discriminate]..].
    apply rmap_iff, Forall2_len in E. apply rmap_iff, Forall2_len in E2. replace (length rs =? nrows M)%nat with true by (symmetry; apply Nat.eqb_eq; unfold nrows; congruence).
    destruct out as [ro co]. cbn. split; [intros [= -> ->]; auto|intros [[_ ->] [= ->]]; auto].
  Qed.
  Context {NF : NumFn F}.
  Lemma gauss_rows : joint_rows Gaussian.
  Proof.
    exists (fun p prior w => (length prior <=? nrows (g_theta p)) && (length prior <=? nrows (g_sigma p)) && ((length prior =? 0) || (w =? mcols (g_theta p)))),
      (fun p prior x => map (fun i => gauss_score (nth i prior nzero) (nth i (mrows (g_theta p)) []) (nth i (mrows (g_sigma p)) []) x) (seq 0 (length prior))).
    intros p data prior. reflexivity.
  Qed.
  Lemma smooth_rows sc up : joint_rows {| d_new := fun a b => {| s_log_probs := mzeros a b |}; d_update := up; d_joint := smooth_joint sc |}.
  Proof.
    exists (fun p prior w => (w =? mcols (s_log_probs p)) && (length prior =? nrows (s_log_probs p))),
      (fun p prior x => map (fun i => sc (nth i prior nzero) (nth i (mrows (s_log_probs p)) []) x) (seq 0 (length prior))).
    intros p data prior. reflexivity.
  Qed.
  Lemma nb_builtin (m : NaiveBayes F (Gauss F)) (m' : NaiveBayes F (Smooth F)) :
    row_by_row_mat (nb_predict Gaussian m) /\ row_by_row_mat (nb_predict Bernoulli m') /\ row_by_row_mat (nb_predict Multinomial m').
  Proof. split; [|split]; apply nb_rows; [apply gauss_rows|apply smooth_rows|apply smooth_rows]. Qed.

  Lemma total_mat {T} (p : matrix F -> res (matrix T)) (g : nat -> bool) (k : nat -> nat) (h : nat -> list F -> list T) :
    (forall M out, p M = Ok out <-> (g (mcols M) = true /\ out = Mat (map (h (mcols M)) (mrows M)) (k (mcols M)))) -> row_by_row_mat p.
  Proof.
    intros H. apply (by_rows_mat p (fun w c => g w = true /\ c = k w) (fun w r => Ok (h w r))). intros M [ro co] _ _. rewrite H, rmap_total. cbn.
    split; [intros [? [= -> ->]]; auto|intros [[? ->] [= ->]]; auto].
  Qed.
  Lemma pca_rows (m : PCA F) : row_by_row_mat (pca_predict m).
  Proof.
    unfold pca_predict. destruct (pca_n_features m) as [f|]; [|apply fails_rbr_mat; exact (fun _ => I)].
    destruct (pca_components m) as [C|]. 2: { apply fails_rbr_mat. intros M. destruct (negb _); exact I. }
    assert (Plain : forall C' : matrix F, row_by_row_mat (fun M => if negb (f =? mcols M)%nat then Err InvalidData else rmat_mul M C')).
    { intros C'. apply (total_mat _ (fun w => (f =? w)%nat && (w =? nrows C')%nat) (fun _ => mcols C') (fun _ r => map (fun j => dot r (col C' j)) (seq 0 (mcols C')))).
      intros M out. unfold rmat_mul, rassert. destruct (f =? mcols M)%nat; cbn [negb andb]; [|split; [discriminate|intros [? _]; discriminate]].
      destruct (mcols M =? nrows C')%nat; [|split; [discriminate|intros [? _]; discriminate]]. unfold mat_mul. split; [intros [= <-]; auto|intros [_ ->]; auto]. }
    destruct (pca_center m).
    - destruct (pca_centers m) as [ce|]. 2: { apply fails_rbr_mat. intros M. destruct (negb _); exact I. }
      assert (Cent : forall C' : matrix F, row_by_row_mat (fun M => if negb (f =? mcols M)%nat then Err InvalidData else let? data := centering M ce in rmat_mul data C')).
      { intros C'. apply (total_mat _ (fun w => (f =? w)%nat && ((w <=? length ce)%nat && (w =? nrows C')%nat)) (fun _ => mcols C') (fun _ r => map (fun j => dot (vsub r ce) (col C' j)) (seq 0 (mcols C')))).
        intros M out. unfold centering, rmat_mul, rassert. destruct (f =? mcols M)%nat; cbn [negb andb]; [|split; [discriminate|intros [? _]; discriminate]].
        destruct (mcols M <=? length ce)%nat; cbn; [|split; [discriminate|intros [? _]; discriminate]].
        destruct (mcols M =? nrows C')%nat; [|split; [discriminate|intros [? _]; discriminate]]. unfold mat_mul. cbn. rewrite map_map. split; [intros [= <-]; auto|intros [_ ->]; auto]. }
      destruct (pca_inv m); apply Cent.
    - destruct (pca_inv m); apply Plain.
  Qed.
  Lemma gmm_rows lup (m : GMM F) : row_by_row_mat (gmm_predict lup m).
  Proof.
    unfold gmm_predict, membership_weights. destruct (gmm_means m) as [me|]; [|apply fails_rbr_mat; exact (fun _ => I)].
    destruct (gmm_covars m) as [cv|]; [|apply fails_rbr_mat; exact (fun _ => I)].
    destruct (rmap lup cv) as [di| |]; cbn; [|apply fails_rbr_mat; exact (fun _ => I)..].
    apply (by_rows_mat _ (fun _ c => c = gmm_comp_count m) (fun _ r => let? q := gmm_row m me di r in Ok (fst q))). intros M [ro co] _ _.
    rewrite <- rmap_comp. destruct (rmap (gmm_row m me di) (mrows M)) as [rs| |]; cbn; [|split; [discriminate|intros [_ ?]; discriminate]..].
    rewrite rmap_total. split; [intros [= -> ->]; auto|intros [-> [= ->]]; auto].
  Qed.

  Lemma minmax_rows sc : row_by_row_mat (minmax_transform (F := F) sc).
  Proof.
    apply (total_mat _ (fun w => (length (scale_factors sc) =? w)%nat) (fun w => w) (fun _ row => map2 nadd (map2 nmul row (scale_factors sc)) (const_factors sc))).
    intros M out. unfold minmax_transform. destruct (_ =? _)%nat; cbn; [split; [intros [= <-]; auto|intros [_ ->]; auto]|split; [discriminate|intros [? _]; discriminate]].
  Qed.
  Lemma minmax_inv_rows sc : row_by_row_mat (minmax_inv (F := F) sc).
  Proof.
    apply (total_mat _ (fun w => (w =? length (scale_factors sc))%nat) (fun w => w) (fun _ row => map2 ndiv (map2 nsub row (const_factors sc)) (scale_factors sc))).
    intros M out. unfold minmax_inv. destruct (_ =? _)%nat; cbn; [split; [intros [= <-]; auto|intros [_ ->]; auto]|split; [discriminate|intros [? _]; discriminate]].
  Qed.
  Lemma std_rows st : row_by_row_mat (standardizer_transform (F := F) st).
  Proof.
    apply (total_mat _ (fun w => (length (std_means st) =? w)%nat) (fun w => w) (fun _ row => map2 (fun x y => nadd (ndiv (nmul x (std_stdev st)) (nsqrt y)) (std_mean st))
                              (map2 nsub row (std_means st)) (std_variances st))).
    intros M out. unfold standardizer_transform. destruct (_ =? _)%nat; cbn; [split; [intros [= <-]; auto|intros [_ ->]; auto]|split; [discriminate|intros [? _]; discriminate]].
  Qed.
  Lemma std_inv_rows st : row_by_row_mat (standardizer_inv (F := F) st).
  Proof.
    apply (total_mat _ (fun w => (w =? length (std_means st))%nat) (fun w => w) (fun _ row => map2 nadd
                           (map2 (fun x y => ndiv (nmul (nsub x (std_mean st)) (nsqrt y)) (std_stdev st)) row (std_variances st))
                           (std_means st))).
    intros M out. unfold standardizer_inv. destruct (_ =? _)%nat; cbn; [split; [intros [= <-]; auto|intros [_ ->]; auto]|split; [discriminate|intros [? _]; discriminate]].
  Qed.
  Lemma normalize_rows norm : row_by_row_mat (normalize (F := F) norm).
  Proof.
    apply (by_rows_mat _ (fun w c => c = w) (fun _ => normalize_row norm)). intros M [ro co] _ _. unfold normalize.
    destruct (rmap (normalize_row norm) (mrows M)) as [rs| |]; cbn; [|split; [discriminate|intros [_ ?]; discriminate]..].
    split; [intros [= -> ->]; auto|intros [-> [= ->]]; auto].
  Qed.

  (** Networks: layers compose. *)
  Definition keeps_rows (p : matrix F -> res (matrix F)) : Prop :=
    exists wd : nat -> nat, forall M D, mwf M -> p M = Ok D -> mwf D /\ nrows D = nrows M /\ mcols D = wd (mcols M).
  Lemma single_wf w (r : list F) : length r = w -> mwf (single_row w r).
  Proof. intros H. constructor; [exact H|constructor]. Qed.
  Lemma compose_rows (p q s : matrix F -> res (matrix F)) : keeps_rows p -> row_by_row_mat p -> row_by_row_mat q ->
    (forall M out, mwf M -> (s M = Ok out <-> exists D, p M = Ok D /\ q D = Ok out)) -> row_by_row_mat s.
  Proof.
    intros [wd K] Hp Hq Hs M out W L. rewrite (Hs M out W). split.
    - intros (D & E1 & E2). destruct (K M D W E1) as (WD & ND & CD).
      apply Hp in E1; [|assumption..]. apply Hq in E2; [|assumption|lia]. 
      assert (WM := proj1 (Forall_forall _ _) W).
      revert E1 E2 WM. generalize (mrows M) as rows, (mrows D) as ds, (mrows out) as os. intros rows ds os E1. revert os. induction E1; intros os E2 WM; inversion E2; subst; constructor.
      + apply Hs; [apply single_wf, WM; now left|]. eexists. split; [exact H|assumption].
      + apply IHE1; [assumption|intros; apply WM; now right].
    - intros Q. assert (WM := proj1 (Forall_forall _ _) W).
      assert (X : exists ds, Forall2 (fun r y => p (single_row (mcols M) r) = Ok (single_row (wd (mcols M)) y)) (mrows M) ds /\
                         Forall2 (fun r y => q (single_row (wd (mcols M)) r) = Ok (single_row (mcols out) y)) ds (mrows out)).
      { clear L. revert Q WM. generalize (mrows M) as rows, (mrows out) as os. intros rows os Q. induction Q as [|r y rows os H Q IH]; intros WM; [exists []; split; constructor|].
        destruct IH as (ds & A & B); [intros; apply WM; now right|]. apply Hs in H; [|apply single_wf, WM; now left]. destruct H as (D & E1 & E2).
        destruct (K _ _ (single_wf _ _ (WM r (or_introl eq_refl))) E1) as (WD & ND & CD). cbn in ND, CD. destruct D as [[|d [|]] w]; cbn in ND, CD; try discriminate. subst w.
        exists (d :: ds). split; constructor; assumption. }
      destruct X as (ds & A & B). exists (Mat ds (wd (mcols M))).
      assert (E1 : p M = Ok (Mat ds (wd (mcols M)))) by (apply Hp; assumption). split; [exact E1|]. destruct (K _ _ W E1) as (WD & ND & _). apply Hq; [exact WD|lia|exact B].
  Qed.
  Lemma mul_wf (a b : matrix F) : mwf (mat_mul a b).
  Proof. apply Forall_forall. intros r Hr. cbn in Hr. apply in_map_iff in Hr as (x & <- & _). now rewrite map_length, seq_length. Qed.
  Lemma plain_layer_ok l P : plain_layer l -> keeps_rows (fun M => nl_forward l M P) /\ row_by_row_mat (fun M => nl_forward l M P).
  Proof.
    intros [[s ->]|[a ->]]; cbn.
    - unfold linear_forward. destruct (ln_has_bias s).
      + split.
        * exists (fun _ => mcols P). intros M D _. destruct (negb _); [discriminate|]. unfold rmat_mul, rassert. destruct (_ =? _)%nat; [|discriminate]. intros [= <-].
          split; [apply mul_wf|]. split; [|reflexivity]. unfold nrows. cbn. now rewrite !map_length.
        * apply (total_mat _ (fun w => (w + 1 =? nrows P)%nat && (S w =? nrows P)%nat) (fun _ => mcols P) (fun _ r => map (fun j => dot (nonev :: r) (col P j)) (seq 0 (mcols P)))).
          intros M out. destruct (mcols M + 1 =? nrows P)%nat; cbn [negb andb]; [|split; [discriminate|intros [? _]; discriminate]]. unfold rmat_mul, rassert. cbn [mcols with_ones].
          destruct (S (mcols M) =? nrows P)%nat; [|split; [discriminate|intros [? _]; discriminate]]. unfold mat_mul, with_ones. cbn. rewrite map_map. split; [intros [= <-]; auto|intros [_ ->]; auto].
      + split.
        * exists (fun _ => mcols P). intros M D _. destruct (negb _); [discriminate|]. unfold rmat_mul, rassert. destruct (_ =? _)%nat; [|discriminate]. intros [= <-].
          split; [apply mul_wf|]. split; [|reflexivity]. unfold nrows. cbn. now rewrite !map_length.
        * apply (total_mat _ (fun w => (w =? nrows P)%nat) (fun _ => mcols P) (fun _ r => map (fun j => dot r (col P j)) (seq 0 (mcols P)))).
          intros M out. destruct (mcols M =? nrows P)%nat eqn:E; cbn [negb]; [|split; [discriminate|intros [? _]; discriminate]]. unfold rmat_mul, rassert. rewrite E.
          unfold mat_mul. split; [intros [= <-]; auto|intros [_ ->]; auto].
    - assert (E : forall M, mwf M -> activ_forward a M P = Ok (Mat (map (map (af a)) (mrows M)) (mcols M))).
      { intros M W. unfold activ_forward, mdata. rewrite concat_map. replace (nrows M) with (length (map (map (af a)) (mrows M))) by apply map_length. apply mat_new_concat.
        apply Forall_forall. intros r Hr. apply in_map_iff in Hr as (x & <- & Hx). rewrite map_length. exact (proj1 (Forall_forall _ _) W x Hx). }
      split.
      + exists (fun w => w). intros M D W H. rewrite (E M W) in H. injection H as <-. split; [|split; [unfold nrows; cbn; apply map_length|reflexivity]].
        apply Forall_forall. intros r Hr. cbn in Hr. apply in_map_iff in Hr as (x & <- & Hx). rewrite map_length. exact (proj1 (Forall_forall _ _) W x Hx).
      + apply (by_rows_mat _ (fun w c => c = w) (fun _ r => Ok (map (af a) r))). intros M [ro co] W _. rewrite (E M W), rmap_total. cbn. split; [intros [= -> ->]; auto|intros [-> [= ->]]; auto].
  Qed.
  Lemma id_rows : row_by_row_mat (fun M : matrix F => Ok M).
  Proof.
    apply (by_rows_mat _ (fun w c => c = w) (fun _ r => Ok r)). intros [rm cm] [ro co] _ _. rewrite rmap_total, map_id. cbn. split; [intros [= -> ->]; auto|intros [-> [= ->]]; auto].
  Qed.
  Lemma rest_rows ws ls : Forall plain_layer ls -> forall idx, row_by_row_mat (forward_rest ws ls idx).
  Proof.
    induction 1 as [|l ls Hl _ IH]; intros idx; [exact id_rows|]. cbn [forward_rest]. unfold wslice, rassert.
    destruct (_ <=? _)%nat; cbn [rbind]; [|apply fails_rbr_mat; exact (fun _ => I)].
    destruct (plain_layer_ok l (Mat (chunk (fst (nl_param_shape l)) (snd (nl_param_shape l)) (skipn idx ws)) (snd (nl_param_shape l))) Hl) as [K R].
    apply (compose_rows _ _ _ K R (IH (idx + num_params l)%nat)). intros M out _.
    destruct (nl_forward l M _) as [D| |]; split; try discriminate; try (intros (D' & ? & ?); congruence). intros H. exists D. auto.
  Qed.
  Lemma net_rows (net : BaseNeuralNet F) : Forall plain_layer (nn_layers net) -> row_by_row_mat (net_predict net).
  Proof.
    unfold net_predict, forward_prop. intros H. destruct (nn_layers net) as [|l ls]; [exact id_rows|]. inversion H as [|? ? Hl Hls]; subst.
    unfold wslice, rassert. destruct (_ <=? _)%nat; cbn [rbind]; [|apply fails_rbr_mat; exact (fun _ => I)].
    destruct (plain_layer_ok l (Mat (chunk (fst (nl_param_shape l)) (snd (nl_param_shape l)) (skipn 0 (nn_weights net))) (snd (nl_param_shape l))) Hl) as [K R].
    apply (compose_rows _ _ _ K R (rest_rows (nn_weights net) ls Hls (num_params l))). intros M out _.
    destruct (nl_forward l M _) as [D| |]; cbn; split; try discriminate; try (intros (D' & ? & ?); congruence). intros Q. exists D. auto.
  Qed.
  Lemma mlp_plain ls a : Forall plain_layer (mlp_layers (F := F) ls a).
  Proof.
    induction ls as [|x [|y ls] IH]; cbn; [constructor|constructor|]. constructor; [left; eexists; reflexivity|]. constructor; [right; eexists; reflexivity|exact IH].
  Qed.
  Lemma const_mean_rows a (M : matrix F) : const_mean a M = map (fun _ => nadd nzero a) (mrows M).
  Proof. unfold const_mean, nrows. induction (mrows M) as [|r rs IH]; [reflexivity|]. cbn. now rewrite IH. Qed.
End Models.

Lemma add_layers_eq {F} {N : Num F} {NF : NumFn F} rng (ls : list (NetLayer F)) : forall net, nn_layers (net_add_layers rng net ls) = nn_layers net ++ ls.
Proof.
  unfold net_add_layers. induction ls as [|l ls IH]; intros net; cbn; [now rewrite app_nil_r|]. rewrite IH. cbn. now rewrite <- app_assoc.
Qed.
Lemma net_mlp_plain {F} {N : Num F} {NF : NumFn F} rng sizes c (a : Activ F) net : net_mlp rng sizes c a = Ok net -> Forall plain_layer (nn_layers net).
Proof.
  unfold net_mlp, rassert. destruct (_ <=? _); [|discriminate]. intros [= <-]. rewrite add_layers_eq. cbn. apply mlp_plain.
Qed.
