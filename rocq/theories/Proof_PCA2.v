(** What [PCA] computes, over the reals. *)
From Coq Require Import List Arith Lia Bool Reals Lra.
From Verif Require Import Base BaseLemmas Num Linalg LinalgR Spec_Calc CalcR Proof_KMeans MatR Model_NNet Model_PCA Spec_PCA Proof_PCA.
Import ListNotations.
Local Open Scope R_scope.

Lemma wideb_true {F} (X : matrix F) : wide X -> wideb X = true.
Proof. apply Nat.ltb_lt. Qed.
Lemma wideb_false {F} (X : matrix F) : ~ wide X -> wideb X = false.
Proof. intros H. apply Nat.ltb_ge. unfold wide in H. lia. Qed.
Lemma col_mean_nth (X : matrix R) k : (k < mcols X)%nat -> nth k (col_mean X) 0 = mean_of X k.
Proof.
  intros H. unfold col_mean. rewrite nth_map_seq by exact H. unfold mean_of. cbn [ndiv nofnat NumR]. f_equal.
  rewrite vsum_R, rsum_nth, col_length. apply sumR_ext. intros i Hi. apply col_nth. exact Hi.
Qed.
Lemma centred_entry (X : matrix R) c i k : mwf X -> length c = mcols X -> (i < nrows X)%nat -> (k < mcols X)%nat ->
  entry (centred X c) i k = entry X i k - nth k c 0.
Proof.
  intros W L Hi Hk. unfold entry, centred. cbn [mrows]. rewrite (nth_map _ _ _ _ []) by exact Hi.
  unfold vsub. rewrite (map2_nth _ _ _ _ 0 0); [reflexivity| |lia]. rewrite (mwf_row X i W Hi). exact Hk.
Qed.
Lemma query_entry self (X Xs : matrix R) i k : mwf Xs -> mcols Xs = mcols X -> (i < nrows Xs)%nat -> (k < mcols X)%nat ->
  entry (query self X Xs) i k = entry Xs i k - centre_of (pca_center self) X k.
Proof.
  intros W E Hi Hk. unfold query, centre_of. destruct (pca_center self); [|ring].
  rewrite centred_entry by (rewrite ?col_mean_length; auto; lia). rewrite col_mean_nth by auto. reflexivity.
Qed.
Lemma prepared_is self (X : matrix R) i k : mwf X -> (i < nrows X)%nat -> (k < mcols X)%nat ->
  entry (prepared self X) i k = prepared_entry (pca_center self) X i k.
Proof. intros W Hi Hk. exact (query_entry self X X i k W eq_refl Hi Hk). Qed.
Lemma is_svd_ext r c m A A' V V' s : (forall i j, (i < r)%nat -> (j < c)%nat -> A i j = A' i j) ->
  (forall i j, (i < c)%nat -> (j < m)%nat -> V i j = V' i j) -> is_svd r c m A V s -> is_svd r c m A' V' s.
Proof.
  intros HA HV (U & HU & HO & HS & HD & HE). exists U. split; [exact HU|]. split.
  - intros a b Ha Hb. rewrite <- (HO a b Ha Hb). apply sumR_ext. intros k Hk. rewrite !HV by auto. reflexivity.
  - split; [exact HS|]. split; [exact HD|]. intros i j Hi Hj. rewrite <- HA by auto. rewrite (HE i j Hi Hj).
    apply sumR_ext. intros k Hk. rewrite HV by auto. reflexivity.
Qed.
Lemma firstcols_entry n (v : matrix R) i j : mwf v -> (i < nrows v)%nat -> (j < sel n (mcols v))%nat -> entry (firstcols n v) i j = entry v i j.
Proof.
  intros W Hi Hj. destruct n as [k|]; [|reflexivity]. unfold entry, firstcols. cbn [mrows sel] in *.
  rewrite (nth_map _ _ _ _ []) by exact Hi. rewrite nth_map_seq by exact Hj. reflexivity.
Qed.

Theorem pca_values svd (self self' : PCA R) X : svd_sound svd -> mwf X -> (0 < nrows X)%nat -> pca_train svd self X = (self', Ok tt) ->
  usable self X ->
  exists V sigma, is_svd (nrows X) (mcols X) (Nat.min (nrows X) (mcols X)) (prepared_entry (pca_center self) X) V sigma /\
    (exists comp, pca_get_components self' = Ok comp /\ mwf comp /\
       if wideb X then nrows comp = nrows X /\ mcols comp = mcols X /\ forall i j, (i < nrows comp)%nat -> (j < mcols comp)%nat -> entry comp i j = V j i
       else nrows comp = mcols X /\ mcols comp = wanted (pca_n self) (mcols X) /\ forall i j, (i < nrows comp)%nat -> (j < mcols comp)%nat -> entry comp i j = V i j) /\
    forall Xs, mwf Xs -> mcols Xs = mcols X -> exists out, pca_predict self' Xs = Ok out /\
      mcols out = Nat.min (nrows X) (wanted (pca_n self) (mcols X)) /\
      projection (pca_center self) X V Xs out.
Proof.
  intros HS W HR HT HG.
  destruct (pca_predict_trained _ _ _ _ (svd_sound_shape _ HS) W HT) as (V & HV & _ & _ & _ & HC & _ & HP).
  destruct (pca_train_inv _ _ _ _ HT) as (Hn & _).
  destruct (prepared_wf self X W) as (PW & PR & PC).
  destruct (HS _ _ PW HV) as (VW & VR & VC & sigma & HD). rewrite PC in VR. rewrite PR, PC in VC. rewrite PR, PC, VC in HD.
  exists (entry V), sigma. split.
  { refine (is_svd_ext _ _ _ _ _ _ _ _ _ _ HD); [|reflexivity]. intros i j Hi Hj. apply prepared_is; auto. }
  assert (HN : (wanted (pca_n self) (mcols X) <= mcols X)%nat).
  { unfold wanted. destruct (pca_n self); auto. }
  destruct HG as [(Hw & Hi)|(Hw & Hf)].
  - rewrite (wideb_false _ Hw) in *. rewrite Hi in *. cbn [orb] in *. assert (VC' : mcols V = mcols X) by (unfold wide in Hw; lia). split.
    { exists (firstcols (pca_n self) V). split; [exact HC|]. split; [apply firstcols_wf; exact VW|].
      split; [rewrite firstcols_nrows; exact VR|]. rewrite firstcols_mcols, VC'. split; [reflexivity|].
      intros i j Hi' Hj'. rewrite firstcols_nrows in Hi'. apply firstcols_entry; auto. rewrite VC'. auto. }
    intros Xs WX EX. destruct (query_wf self X Xs WX EX) as (QW & QR & QC). eexists. split.
    { rewrite HP by auto. apply rmat_mul_ok. rewrite firstcols_nrows, VR. exact QC. }
    assert (M : mcols (mat_mul (query self X Xs) (firstcols (pca_n self) V)) = wanted (pca_n self) (mcols X)).
    { cbn [mat_mul mcols]. rewrite firstcols_mcols, VC'. reflexivity. }
    rewrite M. split; [unfold wide in Hw; lia|]. split; [rewrite mat_mul_nrows; exact QR|]. split; [apply mat_mul_wf|].
    intros i j Hi' Hj. rewrite M in Hj.
    rewrite mat_mul_entry; auto.
    + rewrite QC. apply sumR_ext. intros k Hk. rewrite query_entry by auto. f_equal. apply firstcols_entry; auto; [lia|]. rewrite VC'. exact Hj.
    + rewrite firstcols_nrows, VR. auto.
    + lia.
    + rewrite firstcols_mcols, VC'. exact Hj.
  - rewrite (wideb_true _ Hw) in *. cbn [orb] in *. assert (VC' : mcols V = nrows X) by (unfold wide in Hw; lia).
    assert (FC : sel (pca_n self) (mcols X) = mcols X) by exact Hf.
    assert (FE : forall i j, (i < nrows X)%nat -> (j < mcols X)%nat -> entry (firstcols (pca_n self) (transpose V)) i j = entry V j i).
    { intros i j Hi Hj. rewrite firstcols_entry.
      - apply transpose_entry; lia.
      - apply transpose_wf.
      - rewrite transpose_nrows. lia.
      - rewrite transpose_mcols, VR, FC. exact Hj. }
    split.
    { exists (firstcols (pca_n self) (transpose V)). split; [exact HC|]. split; [apply firstcols_wf, transpose_wf|].
      rewrite firstcols_nrows, transpose_nrows, firstcols_mcols, transpose_mcols, VR, FC, VC'. split; [reflexivity|]. split; [reflexivity|]. exact FE. }
    intros Xs WX EX. destruct (query_wf self X Xs WX EX) as (QW & QR & QC). eexists. split.
    { rewrite HP by auto. cbn zeta. apply rmat_mul_ok. rewrite transpose_nrows, firstcols_mcols, transpose_mcols, VR, FC. exact QC. }
    cbn zeta.
    assert (M : mcols (mat_mul (query self X Xs) (transpose (firstcols (pca_n self) (transpose V)))) = nrows X).
    { cbn [mat_mul mcols]. rewrite transpose_mcols, firstcols_nrows, transpose_nrows. exact VC'. }
    rewrite M. split; [rewrite Hf; unfold wide in Hw; lia|]. split; [rewrite mat_mul_nrows; exact QR|]. split; [apply mat_mul_wf|].
    intros i j Hi Hj. rewrite M in Hj.
    rewrite mat_mul_entry; auto.
    + rewrite QC. apply sumR_ext. intros k Hk. rewrite query_entry by auto. f_equal. rewrite transpose_entry.
      * apply FE; auto.
      * rewrite firstcols_mcols, transpose_mcols, VR, FC. exact Hk.
      * rewrite firstcols_nrows, transpose_nrows. lia.
    + rewrite transpose_nrows, firstcols_mcols, transpose_mcols, VR, FC. auto.
    + lia.
    + rewrite transpose_mcols, firstcols_nrows, transpose_nrows. lia.
Qed.

(** The rotated training data. *)
Theorem pca_principal svd (self self' : PCA R) X : svd_sound svd -> mwf X -> (0 < nrows X)%nat -> pca_train svd self X = (self', Ok tt) ->
  usable self X ->
  exists V out, pca_predict self' X = Ok out /\ projection (pca_center self) X V X out /\ nrows out = nrows X /\
    mcols out = Nat.min (nrows X) (wanted (pca_n self) (mcols X)) /\
    orthonormal (mcols X) (mcols out) V /\
    (forall a b, (a < mcols out)%nat -> (b < mcols out)%nat -> a <> b -> sumR (nrows X) (fun i => entry out i a * entry out i b) = 0) /\
    (forall j u, (j < mcols out)%nat -> sumR (mcols X) (fun k => u k * u k) = 1 ->
       (forall l, (l < j)%nat -> sumR (mcols X) (fun k => V k l * u k) = 0) ->
       spread (pca_center self) X u <= sumR (nrows X) (fun i => entry out i j * entry out i j)).
Proof.
  intros HS W HR HT HG. destruct (pca_values _ _ _ _ HS W HR HT HG) as (V & sigma & HD & _ & HP).
  destruct (HP X W eq_refl) as (out & E & MC & PR & PW & PE). exists V, out. split; [exact E|]. split; [split; [exact PR|split; [exact PW|exact PE]]|].
  split; [exact PR|]. split; [exact MC|].
  destruct (pca_train_inv _ _ _ _ HT) as (Hn & _).
  assert (HN : (wanted (pca_n self) (mcols X) <= mcols X)%nat).
  { unfold wanted. destruct (pca_n self); auto. }
  assert (HM : (mcols out <= Nat.min (nrows X) (mcols X))%nat) by lia.
  destruct HD as (U & HU & HV & HSg & HDc & HA).
  assert (COL : forall a b, (a < mcols out)%nat -> (b < mcols out)%nat ->
    sumR (nrows X) (fun i => entry out i a * entry out i b) = if (a =? b)%nat then sigma a * sigma a else 0).
  { intros a b Ha Hb. rewrite <- (svd_cols _ _ _ _ _ _ _ HU HV HA a b) by lia.
    apply sumR_ext. intros i Hi. rewrite !PE by auto. reflexivity. }
  split; [intros a b Ha Hb; apply HV; lia|]. split.
  - intros a b Ha Hb Hab. rewrite COL by auto. destruct (Nat.eqb_spec a b); [contradiction|reflexivity].
  - intros j u Hj Hu Ho. rewrite COL by auto. rewrite Nat.eqb_refl.
    refine (svd_max _ _ _ _ _ _ _ HU HV HSg HDc HA j u _ Hu Ho). lia.
Qed.
Lemma centred_sum (X : matrix R) k : (0 < nrows X)%nat -> sumR (nrows X) (fun i => entry X i k - mean_of X k) = 0.
Proof. intros H. rewrite sumR_minus, sumR_const. unfold mean_of. field. apply not_0_INR. lia. Qed.
Theorem pca_mean_zero (X out : matrix R) V : (0 < nrows X)%nat -> projection true X V X out ->
  forall j, (j < mcols out)%nat -> sumR (nrows X) (fun i => entry out i j) = 0.
Proof.
  intros HR (_ & _ & PE) j Hj. rewrite (sumR_ext _ _ (fun i => sumR (mcols X) (fun k => (entry X i k - centre_of true X k) * V k j))) by auto.
  rewrite sumR_exch. apply sumR_zero. intros k Hk. rewrite sumR_scal_r. unfold centre_of. rewrite centred_sum by auto. ring.
Qed.

Section History.
  Context {F : Type} {N : Num F}.
  Lemma trained_config svd (start self : PCA F) Ts : trained_on svd start Ts self -> pca_n self = pca_n start /\ pca_center self = pca_center start.
  Proof.
    induction 1 as [|Ts self X self' H IH W E|Ts self X self' k H IH W E]; auto.
    - destruct IH as (<- & <-). unfold pca_train in E. clear H.
      destruct (match pca_n self with None => false | Some n => (mcols X <? n)%nat end); [discriminate|].
      destruct (pca_center self) eqn:Ec; (destruct (rbind _ _) as [v0| |]; [|discriminate|discriminate]); cbn [pca_n pca_center] in E;
        (destruct (match pca_n self with Some c => _ | None => _ end) as [comps| |]; [|discriminate|discriminate]);
        apply (f_equal fst) in E; cbn [fst] in E; subst self'; cbn; auto.
    - destruct (pca_train_failed _ _ _ _ _ E) as (-> & _). exact IH.
  Qed.
  Lemma trained_inv svd (start self : PCA F) Ts : svd_shape svd -> pca_inv start = false -> trained_on svd start Ts self ->
    (pca_inv self = true <-> Exists wide Ts).
  Proof.
    intros HS H0 H. induction H as [|Ts self X self' H IH W E|Ts self X self' k H IH W E].
    - rewrite H0. split; [discriminate|]. intros H. inversion H.
    - destruct (pca_predict_trained _ _ _ _ HS W E) as (_ & _ & _ & _ & -> & _). rewrite orb_true_iff, IH, Exists_app.
      split.
      + intros [Hw|Hw]; [right; constructor; apply Nat.ltb_lt; exact Hw|left; exact Hw].
      + intros [Hw|Hw]; [right; exact Hw|left]. inversion Hw as [? ? Hx|? ? Hx]; [apply wideb_true; exact Hx|inversion Hx].
    - destruct (pca_train_failed _ _ _ _ _ E) as (-> & _). exact IH.
  Qed.
  Lemma trained_untrained svd (start self : PCA F) : (start = pca_default \/ exists n c, start = pca_new n c) -> trained_on svd start [] self ->
    self = start /\ forall X, pca_predict self X = Err UntrainedModel.
  Proof.
    intros HS H. assert (E : self = start).
    { remember [] as Ts eqn:ET. induction H as [|Ts self X self' H IH W E|Ts self X self' k H IH W E]; auto.
      - destruct Ts; discriminate.
      - destruct (pca_train_failed _ _ _ _ _ E) as (-> & _). auto. }
    split; [exact E|]. subst self. destruct HS as [->|(n & c & ->)]; reflexivity.
  Qed.
  (** After a wide training set: only full-width requests survive. *)
  Lemma trained_panics svd (start self self' : PCA F) Ts X n : svd_shape svd -> pca_inv start = false -> trained_on svd start Ts self -> mwf X ->
    pca_train svd self X = (self', Ok tt) -> pca_n start = Some n -> (n < mcols X)%nat -> Exists wide Ts \/ wide X ->
    forall Xs, mwf Xs -> mcols Xs = mcols X -> pca_predict self' Xs = Panic.
  Proof.
    intros HS H0 H W E Hn Hlt Hw. destruct (trained_config _ _ _ _ H) as (En & _).
    apply (pca_panics svd self self' X n HS W E); [congruence|lia|].
    destruct Hw as [Hw|Hw]; [|rewrite (wideb_true _ Hw); reflexivity].
    apply orb_true_iff. right. apply (trained_inv _ _ _ _ HS H0 H). exact Hw.
  Qed.
End History.
Lemma trained_usable svd (start self : PCA R) Ts X : svd_shape svd -> pca_inv start = false -> trained_on svd start Ts self ->
  (Forall (fun T => ~ wide T) (Ts ++ [X]) \/ (wide X /\ wanted (pca_n start) (mcols X) = mcols X)) -> usable self X.
Proof.
  intros HS H0 H HF. destruct (trained_config _ _ _ _ H) as (En & _). destruct HF as [HF|(Hw & HF)].
  - left. apply Forall_app in HF. destruct HF as (H1 & H2). inversion H2; subst. split; [auto|].
    destruct (pca_inv self) eqn:Ei; auto. apply (trained_inv _ _ _ _ HS H0 H) in Ei. apply Exists_exists in Ei. destruct Ei as (T & HT & HwT).
    rewrite Forall_forall in H1. destruct (H1 T HT HwT).
  - right. rewrite En. auto.
Qed.
(** Tall data after wide data, all components: the data is multiplied by the transposed matrix. *)
Theorem pca_transposed svd (self self' : PCA R) X : svd_sound svd -> mwf X -> (0 < nrows X)%nat -> pca_train svd self X = (self', Ok tt) ->
  ~ wide X -> pca_inv self = true -> wanted (pca_n self) (mcols X) = mcols X ->
  exists V sigma, is_svd (nrows X) (mcols X) (mcols X) (prepared_entry (pca_center self) X) V sigma /\
    forall Xs, mwf Xs -> mcols Xs = mcols X -> exists out, pca_predict self' Xs = Ok out /\
      mcols out = mcols X /\ projection (pca_center self) X (fun k j => V j k) Xs out.
Proof.
  intros HS W HR HT Hw Hi Hn.
  destruct (pca_predict_trained _ _ _ _ (svd_sound_shape _ HS) W HT) as (V & HV & _ & _ & _ & HC & _ & HP).
  destruct (prepared_wf self X W) as (PW & PR & PC).
  destruct (HS _ _ PW HV) as (VW & VR & VC & sigma & HD). rewrite PC in VR. rewrite PR, PC in VC. rewrite PR, PC in HD.
  assert (VC' : mcols V = mcols X) by (unfold wide in Hw; lia). rewrite VC' in HD.
  exists (entry V), sigma. split.
  { refine (is_svd_ext _ _ _ _ _ _ _ _ _ _ HD); [|reflexivity]. intros i j Hi' Hj. apply prepared_is; auto. }
  rewrite (wideb_false _ Hw), Hi in HP. cbn [orb] in HP. cbn zeta in HP. set (V' := firstcols (pca_n self) V) in *.
  assert (VW' : mwf V') by (apply firstcols_wf; auto). assert (VR' : nrows V' = mcols X) by (unfold V'; rewrite firstcols_nrows; auto).
  assert (VC2 : mcols V' = mcols X) by (unfold V'; rewrite firstcols_mcols, VC'; exact Hn).
  intros Xs WX EX. destruct (query_wf self X Xs WX EX) as (QW & QR & QC). eexists. split.
  { rewrite HP by auto. apply rmat_mul_ok. rewrite transpose_nrows, QC. auto. }
  assert (M : mcols (mat_mul (query self X Xs) (transpose V')) = mcols X).
  { cbn [mat_mul mcols]. rewrite transpose_mcols. exact VR'. }
  rewrite M. split; [reflexivity|]. split; [rewrite mat_mul_nrows; exact QR|]. split; [apply mat_mul_wf|].
  intros i j Hi' Hj. rewrite M in Hj. rewrite mat_mul_entry; auto.
  - rewrite QC. apply sumR_ext. intros k Hk. rewrite query_entry by auto. f_equal. rewrite transpose_entry by lia. apply firstcols_entry; auto; [lia|]. rewrite VC'. change (sel (pca_n self) (mcols X)) with (wanted (pca_n self) (mcols X)). lia.
  - rewrite transpose_nrows, QC. auto.
  - lia.
  - rewrite transpose_mcols. lia.
Qed.
Theorem pca_values_split : forall svd (self self' : PCA R) X, svd_sound svd -> mwf X -> (0 < nrows X)%nat -> pca_train svd self X = (self', Ok tt) ->
  usable self X ->
  exists V sigma, is_svd (nrows X) (mcols X) (Nat.min (nrows X) (mcols X)) (prepared_entry (pca_center self) X) V sigma /\
    (exists comp, pca_get_components self' = Ok comp /\ mwf comp /\
       (wide X -> nrows comp = nrows X /\ mcols comp = mcols X /\ forall i j, (i < nrows comp)%nat -> (j < mcols comp)%nat -> entry comp i j = V j i) /\
       (~ wide X -> nrows comp = mcols X /\ mcols comp = wanted (pca_n self) (mcols X) /\
          forall i j, (i < nrows comp)%nat -> (j < mcols comp)%nat -> entry comp i j = V i j)) /\
    forall Xs, mwf Xs -> mcols Xs = mcols X -> exists out, pca_predict self' Xs = Ok out /\
      mcols out = Nat.min (nrows X) (wanted (pca_n self) (mcols X)) /\
      projection (pca_center self) X V Xs out.
Proof.
  intros svd self self' X HS W HR HT HG. destruct (pca_values _ _ _ _ HS W HR HT HG) as (V & sigma & HD & (comp & HC & CW & HI) & HP).
  exists V, sigma. split; [exact HD|]. split; [|exact HP]. exists comp. split; [exact HC|]. split; [exact CW|]. split; intros Hw.
  - rewrite (wideb_true _ Hw) in HI. exact HI.
  - rewrite (wideb_false _ Hw) in HI. exact HI.
Qed.
