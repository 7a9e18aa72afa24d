(** * Proofs: rotating to all principal components before training *)
From Coq Require Import List Arith Reals Lra Lia Bool.
From Verif Require Import Base BaseLemmas Num NumX NumFn Linalg LinalgR Spec_Calc CalcR MatR Spec_Regression Model_Regression Model_GLM Spec_GLM Model_Kernel Model_SVM Model_GP Model_History Model_KMeans Model_KNN Model_DBSCAN.
From Verif Require Import Model_PCA Spec_PCA Spec_PCABest Proof_PCA Proof_PCA2 Proof_PCABest Spec_Pipeline Spec_KNN Spec_DBSCAN2 Spec_KMInv Spec_KerInv Proof_KMeans Proof_KMeans2 Proof_KMInv Proof_KerInv.
From Verif Require Proof_KNN2 Proof_DBSCAN2 Proof_NNet2 Spec_Transforms Spec_Equiv Proof_Equiv.
Import ListNotations.
Local Open Scope R_scope.

(** The rows of a square matrix with orthonormal columns are orthonormal. *)
Lemma orth_rows c V k l : orthonormal c c V -> (k < c)%nat -> (l < c)%nat -> sumR c (fun j => V k j * V l j) = if (k =? l)%nat then 1 else 0.
Proof.
  intros HV Hk Hl. destruct (Nat.eqb_spec k l) as [<-|E]; [now apply orth_row_sum|].
  pose proof (orth_row_sum c V k HV Hk) as Nk. pose proof (orth_row_sum c V l HV Hl) as Nl.
  pose (u := fun i => (if (k =? i)%nat then 1 else 0) + (if (l =? i)%nat then 1 else 0)).
  assert (CU : forall j, Proof_PCA.coef c V u j = V k j + V l j).
  { intros j. unfold Proof_PCA.coef, u. rewrite (sumR_ext c _ (fun i => (if (k =? i)%nat then V i j else 0) + (if (l =? i)%nat then V i j else 0))).
    - rewrite sumR_plus. rewrite (sumR_pick c (fun i => V i j) k Hk), (sumR_pick c (fun i => V i j) l Hl). reflexivity.
    - intros i _. destruct (k =? i)%nat, (l =? i)%nat; ring. }
  pose proof (parseval c V u HV) as P. rewrite (sumR_ext c _ (fun j => (V k j * V k j + V l j * V l j) + 2 * (V k j * V l j))) in P by (intros; rewrite CU; ring).
  rewrite !sumR_plus, sumR_scal, Nk, Nl in P.
  assert (U2 : sumR c (fun i => u i * u i) = 2).
  { rewrite (sumR_ext c _ (fun i => (if (k =? i)%nat then 1 else 0) + (if (l =? i)%nat then 1 else 0))).
    - rewrite sumR_plus, (sumR_pick c (fun _ => 1) k Hk), (sumR_pick c (fun _ => 1) l Hl). lra.
    - intros i _. unfold u. destruct (Nat.eqb_spec k i), (Nat.eqb_spec l i); try lra. subst. contradiction. }
  lra.
Qed.

Definition turn (c : nat) (o : nat -> R) (V : nat -> nat -> R) (x : list R) : list R :=
  map (fun j => sumR c (fun k => (nth k x 0 - o k) * V k j)) (seq 0 c).
Lemma turn_len c o V x : length (turn c o V x) = c. Proof. unfold turn. now rewrite map_length, seq_length. Qed.
Lemma turn_nth c o V x j : (j < c)%nat -> nth j (turn c o V x) 0 = sumR c (fun k => (nth k x 0 - o k) * V k j).
Proof. intros H. unfold turn. now rewrite Proof_Equiv.seq_map_nth. Qed.
Lemma turn_motion c o V : orthonormal c c V -> motion c c (turn c o V).
Proof.
  intros HV. exists (fun j k => V k j), (fun j => - sumR c (fun k => o k * V k j)). split.
  - intros x Lx. split; [apply turn_len|]. intros j Hj. rewrite turn_nth by auto.
    rewrite (sumR_ext c _ (fun k => V k j * nth k x 0 - o k * V k j)) by (intros; ring). rewrite sumR_minus. ring.
  - intros k l Hk Hl. now apply orth_rows.
Qed.
Lemma turn_rigid c V : orthonormal c c V -> rigid c c (turn c (fun _ => 0) V).
Proof.
  intros HV a b La Lb. split; [apply turn_len|]. unfold inner.
  rewrite (sumR_ext c _ (fun j => sumR c (fun k => nth k a 0 * V k j) * sumR c (fun k => nth k b 0 * V k j))).
  2:{ intros j Hj. rewrite !turn_nth by auto. f_equal; apply sumR_ext; intros; ring. }
  pose proof (combo c c (fun k l => V l k) (fun k => nth k a 0) (fun k => nth k b 0)) as C. cbn beta in C.
  rewrite <- C; [apply sumR_ext; intros j _; f_equal; apply sumR_ext; intros; ring|]. intros x y Hx Hy. now apply orth_rows.
Qed.

Theorem pca_motion svd self A self' : full_pca svd self A self' ->
  exists T, motion (mcols A) (mcols A) T /\ (pca_center self = false -> rigid (mcols A) (mcols A) T) /\
    forall Y, mwf Y -> mcols Y = mcols A -> pca_predict self' Y = Ok (map_rows (mcols A) T Y).
Proof.
  intros (HS & W & Hc & Hw & Hi & Hn & HT). unfold wide in Hw. assert (HR : (0 < nrows A)%nat) by lia.
  destruct (train_out svd self self' A HS W HR HT) as (V & sigma & p & Ep & Lp & HD & _ & HP). { left. split; [exact Hw|exact Hi]. }
  assert (Pc : p = mcols A) by lia. destruct HD as (U & HU & HV & _). assert (HV' : orthonormal (mcols A) (mcols A) V) by (refine (orth_le _ _ _ _ HV _); lia).
  exists (turn (mcols A) (centre_of (pca_center self) A) V). split; [now apply turn_motion|]. split.
  { intros Ec. rewrite Ec. exact (turn_rigid (mcols A) V HV'). }
  intros Y WY CY. destruct (HP Y WY CY) as (out & E & Co & Ro & Wo & Po). rewrite E. f_equal. destruct out as [rows c]. cbn [mcols] in Co. rewrite Co, Pc in *. unfold map_rows. f_equal.
  unfold nrows in Ro. cbn [mrows] in Ro. apply (nth_ext _ _ [] []). { now rewrite map_length. }
  intros i Hi'. rewrite (nth_indep (map _ _) [] (turn (mcols A) (centre_of (pca_center self) A) V [])) by (rewrite map_length; lia). rewrite map_nth.
  assert (Lr : length (nth i rows []) = mcols A). { unfold mwf in Wo. cbn in Wo. rewrite Forall_forall in Wo. apply Wo. now apply nth_In. }
  apply (nth_ext _ _ 0 0). { now rewrite Lr, turn_len. }
  intros j Hj. rewrite Lr in Hj. rewrite turn_nth by auto. specialize (Po i j). unfold nrows, entry in Po. cbn [mrows mcols] in Po. apply Po; lia.
Qed.

(** Motions are similarities and keep the affine functions. *)
Lemma motion_similar n n' T pts : motion n n' T -> (forall a, In a pts -> length a = n) -> similarity n n' 1 T pts.
Proof.
  intros HT L a b Ha Hb. apply L in Ha, Hb. pose proof (motion_sqdist n n' T HT b a Hb Ha) as E.
  rewrite (sqdist_euclid n b a Hb Ha), (sqdist_euclid n' (T b) (T a)) in E by auto using (motion_len n n' T HT). rewrite Rmult_1_l.
  assert (N1 : 0 <= euclid n a b) by apply sqrt_pos. assert (N2 : 0 <= euclid n' (T a) (T b)) by apply sqrt_pos.
  rewrite !pow2_mul in E. apply Rsqr_inj; assumption.
Qed.
Lemma motion_affine c T : motion c c T -> Spec_Equiv.same_affine c c T.
Proof.
  intros (M & b & HA & HO).
  assert (HR : forall j i, (j < c)%nat -> (i < c)%nat -> sumR c (fun k => M j k * M i k) = if (j =? i)%nat then 1 else 0).
  { intros j i Hj Hi. apply (orth_rows c (fun k j => M k j)); auto. }
  assert (Ap : forall p x, length x = c -> affine p (T x) = nth 0 p 0 + sumR c (fun j => nth (S j) p 0 * b j) + sumR c (fun k => sumR c (fun j => nth (S j) p 0 * M j k) * nth k x 0)).
  { intros p x Lx. destruct (HA x Lx) as (L' & N'). unfold affine. rewrite L', Rplus_assoc. f_equal.
    rewrite (sumR_ext c _ (fun j => nth (S j) p 0 * b j + sumR c (fun k => nth (S j) p 0 * M j k * nth k x 0))).
    2:{ intros j Hj. rewrite N' by auto. rewrite Rmult_plus_distr_l, <- sumR_scal. f_equal. apply sumR_ext. intros; ring. }
    rewrite sumR_plus. f_equal. rewrite sumR_exch. apply sumR_ext. intros k _. now rewrite <- sumR_scal_r. }
  split; [intros x Lx; now destruct (HA x Lx)|]. split.
  - intros p Lp. exists (Proof_Equiv.coef c (nth 0 p 0 + sumR c (fun j => nth (S j) p 0 * b j)) (fun k => sumR c (fun j => nth (S j) p 0 * M j k))).
    split; [apply Proof_Equiv.coef_length|]. intros x Lx. rewrite Ap, Proof_Equiv.coef_affine by auto. reflexivity.
  - intros q Lq. pose (g := fun j => sumR c (fun k => nth (S k) q 0 * M j k)).
    exists (Proof_Equiv.coef c (nth 0 q 0 - sumR c (fun j => g j * b j)) g). split; [apply Proof_Equiv.coef_length|].
    intros x Lx. rewrite Ap by auto. unfold affine. rewrite Lx. unfold Proof_Equiv.coef. cbn [nth].
    rewrite (sumR_ext c (fun j => nth j (map g (seq 0 c)) 0 * b j) (fun j => g j * b j)) by (intros; rewrite Proof_Equiv.seq_map_nth by auto; reflexivity).
    replace (nth 0 q 0 - sumR c (fun j => g j * b j) + sumR c (fun j => g j * b j)) with (nth 0 q 0) by ring. f_equal. apply sumR_ext. intros k Hk. f_equal.
    rewrite (sumR_ext c _ (fun j => sumR c (fun l => nth (S l) q 0 * (M j l * M j k)))).
    2:{ intros j Hj. rewrite Proof_Equiv.seq_map_nth by auto. unfold g. rewrite <- sumR_scal_r. apply sumR_ext. intros; ring. }
    rewrite sumR_exch. rewrite (sumR_ext c _ (fun l => if (k =? l)%nat then nth (S l) q 0 else 0)).
    + apply (sumR_pick c (fun l => nth (S l) q 0)). exact Hk.
    + intros l Hl. rewrite sumR_scal, HO by auto. rewrite Nat.eqb_sym. destruct (k =? l)%nat; ring.
Qed.

Section Downstream.
  Variables (svd : matrix R -> option (matrix R)) (self : PCA R) (A : matrix R) (self' : PCA R).
  Hypothesis H : full_pca svd self A self'.
  Lemma rows_len (Y Z : matrix R) : mwf Y -> mwf Z -> mcols Y = mcols A -> mcols Z = mcols A -> forall a : list R, In a (mrows Z ++ mrows Y) -> length a = mcols A.
  Proof.
    intros WY WZ CY CZ a Ha. unfold mwf in *. rewrite Forall_forall in *. apply in_app_or in Ha. destruct Ha as [Ha|Ha]; [rewrite <- CZ|rewrite <- CY]; auto.
  Qed.
  Lemma moved_wf T (Y : matrix R) : motion (mcols A) (mcols A) T -> mwf Y -> mcols Y = mcols A -> mwf (map_rows (mcols A) T Y).
  Proof.
    intros HT W C. unfold mwf, map_rows in *. cbn. apply Forall_map. eapply Forall_impl; [|exact W]. cbn. intros r Hr. apply (motion_len _ _ _ HT). congruence.
  Qed.
  Ltac rotated T HM E := destruct (pca_motion _ _ _ _ H) as (T & HM & HRg & E).
  Theorem rotated_kmeans M C0 Q M' C0' Q' : mwf M -> mwf C0 -> mwf Q -> mcols M = mcols A -> mcols C0 = mcols A -> mcols Q = mcols A ->
    pca_predict self' M = Ok M' -> pca_predict self' C0 = Ok C0' -> pca_predict self' Q = Ok Q' ->
    forall tol k iters, clusters tol (km_new k iters) (Ok (Spec_Transforms.inj C0')) (Spec_Transforms.inj M') (Spec_Transforms.inj Q') =
      clusters tol (km_new k iters) (Ok (Spec_Transforms.inj C0)) (Spec_Transforms.inj M) (Spec_Transforms.inj Q).
  Proof.
    intros WM W0 WQ CM C0e CQ EM E0 EQ tol k iters. rotated T HM E. rewrite E in EM, E0, EQ by auto. injection EM as <-. injection E0 as <-. injection EQ as <-.
    apply (motion_train (mcols A)); auto. apply H.
  Qed.
  Theorem rotated_dbscan M M' (m m1 m1' : DBSCAN R) lab lab' : mwf M -> mcols M = mcols A -> pca_predict self' M = Ok M' ->
    dbscan_train (nrows M) m M = Some m1 -> dbscan_train (nrows M) m M' = Some m1' -> db_clusters m1 = Some lab -> db_clusters m1' = Some lab' -> lab' = lab.
  Proof.
    intros WM CM EM T1 T2 L1 L2. rotated T HM E. rewrite E in EM by auto. injection EM as <-.
    eapply (Proof_DBSCAN2.train_similar m m m1 m1' M (mcols A) 1 T lab lab'); auto using moved_wf; try lra.
    rewrite CM. apply motion_similar; [exact HM|]. intros a Ha. unfold mwf in WM. rewrite Forall_forall in WM. rewrite <- CM. auto.
  Qed.
  Theorem rotated_knn M Q M' Q' (c c' : KNNClassifier (option (matrix R))) : mwf M -> mwf Q -> mcols M = mcols A -> mcols Q = mcols A ->
    pca_predict self' M = Ok M' -> pca_predict self' Q = Ok Q' ->
    knn_searcher _ c = Some M -> knn_searcher _ c' = Some M' -> knn_k _ c' = knn_k _ c -> knn_target _ c' = knn_target _ c -> (knn_k _ c <= nrows M)%nat ->
    knn_predict (brute_search (F := R)) c' Q' = knn_predict (brute_search (F := R)) c Q.
  Proof.
    intros WM WQ CM CQ EM EQ S1 S2 K TG KN. rotated T HM E. rewrite E in EM, EQ by auto. injection EM as <-. injection EQ as <-.
    eapply (Proof_KNN2.classifier_similar c c' M Q (mcols A) 1 T); auto using moved_wf; try lra; try congruence.
    rewrite CM. apply motion_similar; [exact HM|]. apply rows_len; auto.
  Qed.
  Theorem rotated_linreg solve solve' s s' M y Q M' Q' m m' : solver_sound solve -> solver_sound solve' -> mwf M -> mwf Q -> mcols M = mcols A -> mcols Q = mcols A ->
    pca_predict self' M = Ok M' -> pca_predict self' Q = Ok Q' -> Forall (Spec_Equiv.determined M) (mrows Q) ->
    lr_train solve s M y = (m, Ok tt) -> lr_train solve' s' M' y = (m', Ok tt) -> exists out, lr_predict m Q = Ok out /\ lr_predict m' Q' = Ok out.
  Proof.
    intros Sv Sv' WM WQ CM CQ EM EQ D T1 T2. rotated T HM E. rewrite E in EM, EQ by auto. injection EM as <-. injection EQ as <-.
    eapply (Proof_Equiv.lr_features solve solve' s s' T (mcols A) M y Q); eauto; [congruence|]. rewrite CM. now apply motion_affine.
  Qed.
  Theorem rotated_glm inverse inverse' s s' M y Q M' Q' m m' : inverse_sound inverse -> inverse_sound inverse' -> mwf M -> mwf Q -> mcols M = mcols A -> mcols Q = mcols A ->
    pca_predict self' M = Ok M' -> pca_predict self' Q = Ok Q' -> Forall (Spec_Equiv.determined M) (mrows Q) ->
    glm_train inverse Normal s M y = (m, Ok tt) -> glm_train inverse' Normal s' M' y = (m', Ok tt) -> exists out, glm_predict Normal m Q = Ok out /\ glm_predict Normal m' Q' = Ok out.
  Proof.
    intros Sv Sv' WM WQ CM CQ EM EQ D T1 T2. rotated T HM E. rewrite E in EM, EQ by auto. injection EM as <-. injection EQ as <-.
    eapply (Proof_Equiv.glm_features inverse inverse' s s' T (mcols A) M y Q); eauto; [congruence|]. rewrite CM. now apply motion_affine.
  Qed.
  Theorem rotated_svm K sv M y Q M' Q' : distance_kernel K \/ (library_kernel K /\ pca_center self = false) -> mwf M -> mwf Q -> mcols M = mcols A -> mcols Q = mcols A ->
    pca_predict self' M = Ok M' -> pca_predict self' Q = Ok Q' ->
    (let! m := svm_train K sv M' y in RRet (svm_predict K m Q')) = (let! m := svm_train K sv M y in RRet (svm_predict K m Q)).
  Proof.
    intros HK WM WQ CM CQ EM EQ. rotated T HM E. rewrite E in EM, EQ by auto. injection EM as <-. injection EQ as <-. destruct HK as [HK|[HK HC]].
    - apply svm_isometric; auto; [congruence| |]; rewrite ?CM.
      + apply motion_similar; [exact HM|]. apply rows_len; auto.
      + intros a Ha. apply (motion_len _ _ _ HM). revert Ha. apply rows_len; auto.
    - apply svm_rigid; auto; [congruence|]. rewrite CM. auto.
  Qed.
  Theorem rotated_gp K mean cholesky solve_l solve_u gp M y Q M' Q' : distance_kernel K \/ (library_kernel K /\ pca_center self = false) ->
    mwf M -> mwf Q -> mcols M = mcols A -> mcols Q = mcols A -> pca_predict self' M = Ok M' -> pca_predict self' Q = Ok Q' -> mean M' = mean M -> mean Q' = mean Q ->
    exists m m' r, gp_train K mean cholesky solve_l solve_u gp M y = (m, r) /\ gp_train K mean cholesky solve_l solve_u gp M' y = (m', r) /\
      (r = Ok tt -> gp_predict K mean m' Q' = gp_predict K mean m Q /\ gp_get_posterior K mean solve_l m' Q' = gp_get_posterior K mean solve_l m Q).
  Proof.
    intros HK WM WQ CM CQ EM EQ E1 E2. rotated T HM E. rewrite E in EM, EQ by auto. injection EM as <-. injection EQ as <-. destruct HK as [HK|[HK HC]].
    - apply gp_isometric; auto; [congruence| |]; rewrite ?CM.
      + apply motion_similar; [exact HM|]. apply rows_len; auto.
      + intros a Ha. apply (motion_len _ _ _ HM). revert Ha. apply rows_len; auto.
    - apply gp_rigid; auto; [congruence|]. rewrite CM. auto.
  Qed.
End Downstream.
