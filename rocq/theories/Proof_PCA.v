(** Proofs about principal component analysis. *)
From Coq Require Import List Arith Lia Bool Reals Lra.
From Verif Require Import Base BaseLemmas Num Linalg LinalgR Spec_Calc CalcR Proof_KMeans MatR Model_NNet Model_PCA Spec_PCA.
Import ListNotations.
Local Open Scope R_scope.

(** ** Singular value decompositions *)
Lemma combo r m U c d : orthonormal r m U ->
  sumR r (fun i => sumR m (fun l => U i l * c l) * sumR m (fun l => U i l * d l)) = sumR m (fun l => c l * d l).
Proof.
  intros HU.
  rewrite (sumR_ext r _ (fun i => sumR m (fun a => sumR m (fun b => c a * d b * (U i a * U i b))))).
  2:{ intros i _. rewrite <- sumR_scal_r. apply sumR_ext. intros a _. rewrite <- sumR_scal. apply sumR_ext. intros b _. ring. }
  rewrite sumR_exch. apply sumR_ext. intros a Ha.
  rewrite sumR_exch.
  rewrite (sumR_ext m _ (fun b => if (a =? b)%nat then c a * d b else 0)).
  2:{ intros b Hb. rewrite sumR_scal, HU by auto. destruct (a =? b)%nat; ring. }
  apply sumR_pick with (f := fun b => c a * d b). exact Ha.
Qed.
Definition coef (c : nat) (V : nat -> nat -> R) (u : nat -> R) (l : nat) : R := sumR c (fun k => V k l * u k).
Lemma bessel c m V u : orthonormal c m V -> sumR m (fun l => coef c V u l * coef c V u l) <= sumR c (fun k => u k * u k).
Proof.
  intros HV. set (w := coef c V u).
  assert (E : 0 <= sumR c (fun k => (u k - sumR m (fun l => V k l * w l)) * (u k - sumR m (fun l => V k l * w l)))).
  { apply sumR_ge0. intros k _. apply Rle_0_sqr. }
  rewrite (sumR_ext c _ (fun k => (u k * u k - 2 * (u k * sumR m (fun l => V k l * w l)))
    + sumR m (fun l => V k l * w l) * sumR m (fun l => V k l * w l))) in E by (intros; ring).
  rewrite sumR_plus, sumR_minus, sumR_scal, (combo _ _ _ _ _ HV) in E.
  assert (X : sumR c (fun k => u k * sumR m (fun l => V k l * w l)) = sumR m (fun l => w l * w l)).
  { rewrite (sumR_ext c _ (fun k => sumR m (fun l => w l * (V k l * u k)))).
    2:{ intros k _. rewrite <- sumR_scal. apply sumR_ext. intros l _. ring. }
    rewrite sumR_exch. apply sumR_ext. intros l _. rewrite sumR_scal. reflexivity. }
  rewrite X in E. lra.
Qed.
Section SVD.
  Variables (r c m : nat) (A V U : nat -> nat -> R) (sigma : nat -> R).
  Hypotheses (HU : orthonormal r m U) (HV : orthonormal c m V)
    (HS : forall j, (j < m)%nat -> 0 <= sigma j) (HD : forall i j, (i <= j < m)%nat -> sigma j <= sigma i)
    (HA : forall i j, (i < r)%nat -> (j < c)%nat -> A i j = sumR m (fun k => U i k * sigma k * V j k)).
  Lemma svd_apply u i : (i < r)%nat -> sumR c (fun k => A i k * u k) = sumR m (fun l => U i l * (sigma l * coef c V u l)).
  Proof.
    intros Hi. rewrite (sumR_ext c _ (fun k => sumR m (fun l => U i l * sigma l * (V k l * u k)))).
    2:{ intros k Hk. rewrite (HA i k Hi Hk), <- sumR_scal_r. apply sumR_ext. intros l _. ring. }
    rewrite sumR_exch. apply sumR_ext. intros l _. rewrite sumR_scal. unfold coef. ring.
  Qed.
  Lemma svd_inner u u' : sumR r (fun i => sumR c (fun k => A i k * u k) * sumR c (fun k => A i k * u' k)) =
    sumR m (fun l => (sigma l * coef c V u l) * (sigma l * coef c V u' l)).
  Proof.
    rewrite <- (combo r m U _ _ HU). apply sumR_ext. intros i Hi. rewrite !svd_apply by auto. reflexivity.
  Qed.
  Lemma coef_col j l : (j < m)%nat -> (l < m)%nat -> coef c V (fun k => V k j) l = if (l =? j)%nat then 1 else 0.
  Proof. intros Hj Hl. apply HV; auto. Qed.
  Lemma svd_cols a b : (a < m)%nat -> (b < m)%nat ->
    sumR r (fun i => sumR c (fun k => A i k * V k a) * sumR c (fun k => A i k * V k b)) = if (a =? b)%nat then sigma a * sigma a else 0.
  Proof.
    intros Ha Hb. rewrite (svd_inner (fun k => V k a) (fun k => V k b)).
    rewrite (sumR_ext m _ (fun l => if (a =? l)%nat then (if (a =? b)%nat then sigma l * sigma l else 0) else 0)).
    - rewrite (sumR_pick m (fun l => if (a =? b)%nat then sigma l * sigma l else 0)) by auto. reflexivity.
    - intros l Hl. rewrite !coef_col by auto. rewrite (Nat.eqb_sym l a).
      destruct (Nat.eqb_spec a l) as [->|]; [|ring]. destruct (l =? b)%nat; ring.
  Qed.
  Lemma svd_max j u : (j < m)%nat -> sumR c (fun k => u k * u k) = 1 ->
    (forall l, (l < j)%nat -> sumR c (fun k => V k l * u k) = 0) ->
    sumR r (fun i => sumR c (fun k => A i k * u k) * sumR c (fun k => A i k * u k)) <= sigma j * sigma j.
  Proof.
    intros Hj Hu Ho. rewrite (svd_inner u u).
    apply Rle_trans with (sumR m (fun l => (sigma j * sigma j) * (coef c V u l * coef c V u l))).
    - apply sumR_le. intros l Hl. destruct (Nat.lt_ge_cases l j) as [H|H].
      + unfold coef. rewrite Ho by auto. lra.
      + pose proof (HD j l (conj H Hl)). pose proof (HS l Hl). pose proof (Rle_0_sqr (coef c V u l)) as Q. unfold Rsqr in Q.
        assert (sigma l * sigma l <= sigma j * sigma j) by (apply Rmult_le_compat; lra). nra.
    - rewrite sumR_scal. pose proof (bessel c m V u HV). rewrite Hu in H. pose proof (Rle_0_sqr (sigma j)) as Q. unfold Rsqr in Q. nra.
  Qed.
  (** Vectors orthogonal to all of [V] are sent to 0. *)
  Lemma svd_rest u : (forall l, (l < m)%nat -> sumR c (fun k => V k l * u k) = 0) -> forall i, (i < r)%nat -> sumR c (fun k => A i k * u k) = 0.
  Proof. intros Ho i Hi. rewrite svd_apply by auto. apply sumR_zero. intros l Hl. unfold coef. rewrite Ho by auto. ring. Qed.
End SVD.

(** ** The model *)
Lemma svd_sound_shape svd : svd_sound svd -> svd_shape svd.
Proof. intros H A V W E. destruct (H A V W E) as (? & ? & ? & _). auto. Qed.
Section Generic.
  Context {F : Type} {N : Num F}.
  Lemma col_mean_length (X : matrix F) : length (col_mean X) = mcols X.
  Proof. unfold col_mean. rewrite map_length, seq_length. reflexivity. Qed.
  Lemma vsub_length (a b : list F) : length (vsub a b) = Nat.min (length a) (length b).
  Proof. apply map2_length. Qed.
  Definition centred (X : matrix F) (c : list F) : matrix F := Mat (map (fun r => vsub r c) (mrows X)) (mcols X).
  Lemma centering_ok (X : matrix F) c : length c = mcols X -> centering X c = Ok (centred X c).
  Proof. intros E. unfold centering. rewrite E, Nat.leb_refl. reflexivity. Qed.
  Lemma centred_wf (X : matrix F) c : mwf X -> length c = mcols X -> mwf (centred X c).
  Proof.
    intros W E. unfold mwf, centred in *. cbn [mrows mcols]. apply Forall_forall. intros r Hr. apply in_map_iff in Hr.
    destruct Hr as (x & <- & Hx). rewrite vsub_length, E. rewrite Forall_forall in W. rewrite (W x Hx). apply Nat.min_id.
  Qed.
  Lemma centred_nrows (X : matrix F) c : nrows (centred X c) = nrows X.
  Proof. apply map_length. Qed.
  Lemma pca_untrained_new n center (X : matrix F) : pca_predict (pca_new n center) X = Err UntrainedModel.
  Proof. reflexivity. Qed.
  Definition prepared (self : PCA F) (X : matrix F) : matrix F := if pca_center self then centred X (col_mean X) else X.
  Lemma prepared_wf self X : mwf X -> mwf (prepared self X) /\ nrows (prepared self X) = nrows X /\ mcols (prepared self X) = mcols X.
  Proof.
    intros W. unfold prepared. destruct (pca_center self); [|auto].
    split; [apply centred_wf; auto; apply col_mean_length|]. split; [apply centred_nrows|reflexivity].
  Qed.
  Definition sel (n : option nat) (c : nat) : nat := match n with Some k => k | None => c end.
  Definition firstcols (n : option nat) (v : matrix F) : matrix F :=
    match n with Some k => Mat (map (fun r => map (fun j => nth j r nzero) (seq 0 k)) (mrows v)) k | None => v end.
  Lemma firstcols_nrows n v : nrows (firstcols n v) = nrows v.
  Proof. destruct n; [apply map_length|reflexivity]. Qed.
  Lemma firstcols_mcols n v : mcols (firstcols n v) = sel n (mcols v).
  Proof. destruct n; reflexivity. Qed.
  Lemma firstcols_wf n v : mwf v -> mwf (firstcols n v).
  Proof.
    destruct n; auto. intros _. apply Forall_forall. intros r Hr. cbn in Hr. apply in_map_iff in Hr. destruct Hr as (x & <- & _).
    rewrite map_length, seq_length. reflexivity.
  Qed.
  Lemma select_firstcols v k : (k <= mcols v)%nat -> select_cols v (seq 0 k) = Ok (firstcols (Some k) v).
  Proof.
    intros H. unfold select_cols. assert (E : forallb (fun j => (j <? mcols v)%nat) (seq 0 k) = true).
    { apply forallb_forall. intros j Hj. apply in_seq in Hj. apply Nat.ltb_lt. lia. }
    rewrite E. cbn [rassert]. unfold firstcols. rewrite seq_length. reflexivity.
  Qed.
  Lemma pca_train_rejects svd (self : PCA F) X n : pca_n self = Some n -> (mcols X < n)%nat -> pca_train svd self X = (self, Err InvalidData).
  Proof. intros E H. unfold pca_train. rewrite E. apply Nat.ltb_lt in H. rewrite H. reflexivity. Qed.
  Lemma pca_train_failed svd (self self' : PCA F) X k : pca_train svd self X = (self', Err k) -> self' = self /\ k = InvalidData /\
    exists n, pca_n self = Some n /\ (mcols X < n)%nat.
  Proof.
    unfold pca_train. intros H.
    destruct (pca_n self) as [n|] eqn:En.
    - destruct (mcols X <? n)%nat eqn:B.
      + inversion H; subst. split; auto. split; auto. exists n. split; auto. apply Nat.ltb_lt; auto.
      + exfalso. apply Nat.ltb_ge in B. destruct (pca_center self).
        * rewrite centering_ok in H by apply col_mean_length. cbn [rbind] in H. destruct (svd _) as [v0|]; [|discriminate].
          cbn [pca_n] in H. try rewrite En in H. unfold select_cols, rassert in H. destruct (forallb _ _); discriminate.
        * cbn [rbind] in H. destruct (svd _) as [v0|]; [|discriminate].
          try rewrite En in H. unfold select_cols, rassert in H. destruct (forallb _ _); discriminate.
    - exfalso. destruct (pca_center self).
      + rewrite centering_ok in H by apply col_mean_length. cbn [rbind] in H. destruct (svd _) as [v0|]; [|discriminate].
        cbn [pca_n] in H. try rewrite En in H. discriminate.
      + cbn [rbind] in H. destruct (svd _) as [v0|]; [|discriminate]. try rewrite En in H. discriminate.
  Qed.
  Definition wideb (X : matrix F) : bool := (nrows X <? mcols X)%nat.
  (** The state after training. *)
  Lemma pca_train_ok svd (self : PCA F) X V : svd_shape svd -> mwf X ->
    (forall n, pca_n self = Some n -> (n <= mcols X)%nat) -> svd (prepared self X) = Some V ->
    exists cs, (pca_center self = true -> cs = Some (col_mean X)) /\
    pca_train svd self X =
      ({| pca_n := pca_n self; pca_center := pca_center self; pca_n_features := Some (mcols X); pca_centers := cs;
          pca_components := Some (firstcols (pca_n self) (if wideb X then transpose V else V));
          pca_inv := wideb X || pca_inv self |}, Ok tt).
  Proof.
    intros HS W Hn E. destruct (prepared_wf self X W) as (PW & PR & PC).
    destruct (HS _ _ PW E) as (VW & VR & VC). rewrite PC in VR. rewrite PR, PC in VC.
    assert (VC' : mcols (if wideb X then transpose V else V) = mcols X).
    { unfold wideb. destruct (Nat.ltb_spec (nrows X) (mcols X)); [exact VR|]. rewrite VC. lia. }
    unfold pca_train.
    assert (B : match pca_n self with None => false | Some n => (mcols X <? n)%nat end = false).
    { destruct (pca_n self) as [n|] eqn:En; auto. apply Nat.ltb_ge. auto. }
    rewrite B. unfold prepared in E. destruct (pca_center self) eqn:Ec.
    - exists (Some (col_mean X)). split; [auto|]. rewrite centering_ok by apply col_mean_length. cbn [rbind]. rewrite E. cbn [pca_n pca_inv pca_center pca_centers].
      fold (wideb X). destruct (pca_n self) as [n|] eqn:En.
      + rewrite select_firstcols by (rewrite VC'; auto). destruct (wideb X); reflexivity.
      + destruct (wideb X); reflexivity.
    - exists (pca_centers self). split; [discriminate|]. cbn [rbind]. rewrite E. fold (wideb X).
      destruct (pca_n self) as [n|] eqn:En.
      + rewrite select_firstcols by (rewrite VC'; auto). rewrite Ec. destruct (wideb X); reflexivity.
      + rewrite Ec. destruct (wideb X); reflexivity.
  Qed.
  Lemma pca_train_inv svd (self self' : PCA F) X : pca_train svd self X = (self', Ok tt) ->
    (forall n, pca_n self = Some n -> (n <= mcols X)%nat) /\ exists V, svd (prepared self X) = Some V.
  Proof.
    unfold pca_train, prepared. intros H.
    destruct (pca_n self) as [n|] eqn:En.
    - destruct (mcols X <? n)%nat eqn:B; [discriminate|]. apply Nat.ltb_ge in B. split; [intros ? [= <-]; auto|].
      destruct (pca_center self).
      + rewrite centering_ok in H by apply col_mean_length. cbn [rbind] in H. destruct (svd _) as [v0|]; [eauto|discriminate].
      + cbn [rbind] in H. destruct (svd _) as [v0|]; [eauto|discriminate].
    - split; [discriminate|]. destruct (pca_center self).
      + rewrite centering_ok in H by apply col_mean_length. cbn [rbind] in H. destruct (svd _) as [v0|]; [eauto|discriminate].
      + cbn [rbind] in H. destruct (svd _) as [v0|]; [eauto|discriminate].
  Qed.
  Definition query (self : PCA F) (X : matrix F) (Xs : matrix F) : matrix F := if pca_center self then centred Xs (col_mean X) else Xs.
  Lemma query_wf self X Xs : mwf Xs -> mcols Xs = mcols X -> mwf (query self X Xs) /\ nrows (query self X Xs) = nrows Xs /\ mcols (query self X Xs) = mcols X.
  Proof.
    intros W E. unfold query. destruct (pca_center self); [|auto].
    split; [apply centred_wf; auto; rewrite E; apply col_mean_length|]. split; [apply centred_nrows|exact E].
  Qed.
  (** Prediction after training. *)
  Lemma pca_predict_trained svd (self self' : PCA F) X : svd_shape svd -> mwf X -> pca_train svd self X = (self', Ok tt) ->
    exists V, svd (prepared self X) = Some V /\
    pca_n self' = pca_n self /\ pca_center self' = pca_center self /\ pca_inv self' = wideb X || pca_inv self /\
    pca_get_components self' = Ok (firstcols (pca_n self) (if wideb X then transpose V else V)) /\
    (forall Xs, mcols Xs <> mcols X -> pca_predict self' Xs = Err InvalidData) /\
    forall Xs, mcols Xs = mcols X ->
      pca_predict self' Xs = rmat_mul (query self X Xs)
        (let comp := firstcols (pca_n self) (if wideb X then transpose V else V) in
         if wideb X || pca_inv self then transpose comp else comp).
  Proof.
    intros HS W HT. destruct (pca_train_inv _ _ _ _ HT) as (Hn & V & HV). exists V. split; [exact HV|].
    destruct (pca_train_ok svd self X V HS W Hn HV) as (cs & Hcs & E). rewrite HT in E. apply (f_equal fst) in E. cbn [fst] in E. subst self'.
    split; [reflexivity|]. split; [reflexivity|]. split; [reflexivity|]. split; [reflexivity|]. split.
    - intros Xs HX. unfold pca_predict. cbn [pca_n_features]. rewrite (proj2 (Nat.eqb_neq _ _)); auto.
    - intros Xs HX. unfold pca_predict. cbn [pca_n_features pca_components pca_center pca_centers pca_inv]. rewrite HX, Nat.eqb_refl. cbn [negb].
      unfold query. destruct (pca_center self) eqn:Ec.
      + rewrite Hcs by auto. rewrite centering_ok by (rewrite HX; apply col_mean_length). cbn [rbind].
        destruct (wideb X || pca_inv self); reflexivity.
      + destruct (wideb X || pca_inv self); reflexivity.
  Qed.
  Lemma rmat_mul_ok (a b : matrix F) : mcols a = nrows b -> rmat_mul a b = Ok (mat_mul a b).
  Proof. intros E. unfold rmat_mul. rewrite E, Nat.eqb_refl. reflexivity. Qed.
  Lemma rmat_mul_bad (a b : matrix F) : mcols a <> nrows b -> rmat_mul a b = Panic.
  Proof. intros E. unfold rmat_mul. rewrite (proj2 (Nat.eqb_neq _ _) E). reflexivity. Qed.

  (** Requested components with wide data, or after a wide training set: prediction panics. *)
  Lemma pca_panics svd (self self' : PCA F) X n : svd_shape svd -> mwf X -> pca_train svd self X = (self', Ok tt) ->
    pca_n self = Some n -> n <> mcols X -> wideb X || pca_inv self = true ->
    forall Xs, mwf Xs -> mcols Xs = mcols X -> pca_predict self' Xs = Panic.
  Proof.
    intros HS W HT En Hn Hw Xs WX EX. destruct (pca_predict_trained _ _ _ _ HS W HT) as (V & _ & _ & _ & _ & _ & _ & HP).
    rewrite HP by auto. rewrite Hw. destruct (query_wf self X Xs WX EX) as (_ & _ & QC).
    apply rmat_mul_bad. rewrite QC. cbn zeta. rewrite transpose_nrows, firstcols_mcols, En. cbn. auto.
  Qed.
  (** Shape of the output in all other cases. *)
  Lemma pca_shape svd (self self' : PCA F) X : svd_shape svd -> mwf X -> pca_train svd self X = (self', Ok tt) ->
    wideb X || pca_inv self = false \/ sel (pca_n self) (mcols X) = mcols X ->
    forall Xs, mwf Xs -> mcols Xs = mcols X -> exists out, pca_predict self' Xs = Ok out /\ mwf out /\ nrows out = nrows Xs /\
      mcols out = if wideb X then nrows X else sel (pca_n self) (mcols X).
  Proof.
    intros HS W HT Hc Xs WX EX. destruct (pca_predict_trained _ _ _ _ HS W HT) as (V & HV & _ & _ & _ & _ & _ & HP).
    rewrite HP by auto. destruct (query_wf self X Xs WX EX) as (QW & QR & QC).
    destruct (prepared_wf self X W) as (PW & PR & PC).
    destruct (HS _ _ PW HV) as (VW & VR & VC). rewrite PC in VR. rewrite PR, PC in VC.
    assert (HW : wideb X = true -> mcols V = nrows X). { unfold wideb. rewrite Nat.ltb_lt. lia. }
    assert (HT' : wideb X = false -> mcols V = mcols X). { unfold wideb. rewrite Nat.ltb_ge. lia. }
    cbn zeta. destruct (wideb X) eqn:Ew; cbn [orb] in *.
    - destruct Hc as [?|Hc]; [discriminate|]. eexists. split; [apply rmat_mul_ok|].
      { rewrite transpose_nrows, firstcols_mcols, QC, transpose_mcols, VR. auto. }
      split; [apply mat_mul_wf|]. split; [rewrite mat_mul_nrows; auto|]. cbn [mat_mul mcols].
      rewrite transpose_mcols, firstcols_nrows, transpose_nrows. auto.
    - destruct (pca_inv self).
      + destruct Hc as [?|Hc]; [discriminate|]. eexists. split; [apply rmat_mul_ok|].
        { rewrite transpose_nrows, firstcols_mcols, QC, HT' by auto. auto. }
        split; [apply mat_mul_wf|]. split; [rewrite mat_mul_nrows; auto|]. cbn [mat_mul mcols].
        rewrite transpose_mcols, firstcols_nrows, VR. auto.
      + eexists. split; [apply rmat_mul_ok|].
        { rewrite firstcols_nrows, VR. auto. }
        split; [apply mat_mul_wf|]. split; [rewrite mat_mul_nrows; auto|]. cbn [mat_mul mcols].
        rewrite firstcols_mcols, HT' by auto. auto.
  Qed.
End Generic.
