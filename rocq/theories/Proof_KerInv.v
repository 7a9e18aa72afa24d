From Coq Require Import List Arith Lia Bool Reals Lra Permutation FunctionalExtensionality.
From Verif Require Import Base BaseLemmas Num NumFn Linalg LinalgR MatR Model_Optim Model_Kernel Model_Regression Model_SVM Model_GP Spec_KNN Spec_DBSCAN2 Spec_KerInv.
From Verif Require Proof_Equiv.
Import ListNotations.
Local Open Scope R_scope.

Lemma dk_congr K : distance_kernel K -> forall x y x' y' : list R, length x = length y -> length x' = length y' ->
  dot (vsub x y) (vsub x y) = dot (vsub x' y') (vsub x' y') -> K x y = K x' y'.
Proof.
  induction 1; intros x y x' y' L L' E.
  - unfold k_squared_exp, rvsub, rassert. rewrite L, L', !Nat.eqb_refl. cbn [rbind]. now rewrite E.
  - unfold k_exponential, rvsub, rassert, norm2. rewrite L, L', !Nat.eqb_refl. cbn [rbind]. now rewrite E.
  - unfold k_multiquadric, rvsub, rassert, norm2. rewrite L, L', !Nat.eqb_refl. cbn [rbind]. now rewrite E.
  - unfold k_rational_quadratic, rvsub, rassert. rewrite L, L', !Nat.eqb_refl. cbn [rbind]. now rewrite E.
  - unfold kernel_sum. now rewrite (IHdistance_kernel1 x y x' y'), (IHdistance_kernel2 x y x' y').
  - unfold kernel_prod. now rewrite (IHdistance_kernel1 x y x' y'), (IHdistance_kernel2 x y x' y').
Qed.
Lemma lk_congr K : library_kernel K -> forall x y x' y' : list R, length x = length y -> length x' = length y' ->
  dot x y = dot x' y' -> dot (vsub x y) (vsub x y) = dot (vsub x' y') (vsub x' y') -> K x y = K x' y'.
Proof.
  induction 1; intros x y x' y' L L' D E.
  - now apply dk_congr.
  - unfold k_linear. now rewrite D.
  - unfold k_polynomial. now rewrite D.
  - unfold k_hyper_tan. now rewrite D.
  - unfold kernel_sum. now rewrite (IHlibrary_kernel1 x y x' y'), (IHlibrary_kernel2 x y x' y').
  - unfold kernel_prod. now rewrite (IHlibrary_kernel1 x y x' y'), (IHlibrary_kernel2 x y x' y').
Qed.
Lemma dot_inner n (a b : list R) : length a = n -> length b = n -> dot a b = inner n a b.
Proof. intros La Lb. rewrite (dot_sumR n) by auto. reflexivity. Qed.
Lemma dist_inner n (a b : list R) : length a = n -> length b = n -> dot (vsub a b) (vsub a b) = inner n a a - 2 * inner n a b + inner n b b.
Proof.
  intros La Lb. assert (L : length (vsub a b) = n) by (unfold vsub; rewrite map2_length; lia).
  rewrite (dot_sumR n) by auto. unfold inner. unfold Rminus. rewrite Ropp_mult_distr_l, <- sumR_scal, <- !sumR_plus. apply sumR_ext. intros i Hi.
  unfold vsub. rewrite (map2_nth nsub _ _ i 0 0 0) by lia. cbn [nsub NumR]. ring.
Qed.
Lemma dist_euclid n (a b : list R) : length a = n -> length b = n -> dot (vsub a b) (vsub a b) = euclid n a b ^ 2.
Proof.
  intros La Lb. assert (L : length (vsub a b) = n) by (unfold vsub; rewrite map2_length; lia).
  rewrite (dot_sumR n) by auto. unfold euclid. 
  rewrite <- (Proof_Equiv.sumR_list (seq 0 n)), seq_length.
  rewrite pow2_sqrt; [|apply sumR_ge0; intros; apply pow2_ge_0]. apply sumR_ext. intros i Hi. rewrite seq_nth by auto. cbn [Nat.add].
  unfold vsub. rewrite (map2_nth nsub _ _ i 0 0 0) by lia. cbn [nsub NumR]. ring.
Qed.
Lemma dot_one (a b : list R) : dot (nonev :: a) (nonev :: b) = 1 + dot a b.
Proof. rewrite dot_cons. cbn [nonev NumR]. lra. Qed.
Lemma dist_one (a b : list R) : dot (vsub (nonev :: a) (nonev :: b)) (vsub (nonev :: a) (nonev :: b)) = dot (vsub a b) (vsub a b).
Proof. unfold vsub. cbn [map2]. rewrite dot_cons. cbn [nsub nonev NumR]. lra. Qed.

Theorem rigid_kernels K n n' T a b : library_kernel K -> rigid n n' T -> length a = n -> length b = n ->
  K (T a) (T b) = K a b /\ K (1 :: T a) (1 :: T b) = K (1 :: a) (1 :: b).
Proof.
  intros HK HT La Lb. destruct (HT a b La Lb) as [LTa Eab]. destruct (HT b a Lb La) as [LTb _]. destruct (HT a a La La) as [_ Eaa]. destruct (HT b b Lb Lb) as [_ Ebb].
  assert (D : dot (T a) (T b) = dot a b) by (rewrite (dot_inner n'), (dot_inner n); auto).
  assert (E : dot (vsub (T a) (T b)) (vsub (T a) (T b)) = dot (vsub a b) (vsub a b)) by (rewrite (dist_inner n'), (dist_inner n); auto; now rewrite Eab, Eaa, Ebb).
  split; apply lk_congr; auto; try (cbn; lia); change 1 with (nonev : R); rewrite ?dot_one, ?dist_one; auto. now rewrite D.
Qed.
Theorem isometric_kernels K n n' (T : list R -> list R) a b : distance_kernel K -> length a = n -> length b = n -> length (T a) = n' -> length (T b) = n' ->
  euclid n' (T a) (T b) = euclid n a b -> K (T a) (T b) = K a b /\ K (1 :: T a) (1 :: T b) = K (1 :: a) (1 :: b).
Proof.
  intros HK La Lb La' Lb' HE.
  assert (E : dot (vsub (T a) (T b)) (vsub (T a) (T b)) = dot (vsub a b) (vsub a b)) by (rewrite (dist_euclid n'), (dist_euclid n); auto; now rewrite HE).
  split; apply dk_congr; auto; try (cbn; lia); change 1 with (nonev : R); rewrite ?dist_one; auto.
Qed.
Lemma reordered_rigid n p : Permutation p (seq 0 n) -> rigid n n (reordered p).
Proof.
  intros P a b La Lb. pose proof (Permutation_length P) as L. rewrite seq_length in L. unfold reordered. split; [now rewrite map_length|].
  unfold inner. rewrite <- (Proof_Equiv.sumR_perm p n (fun j => nth j a 0 * nth j b 0) P). apply sumR_ext. intros k Hk.
  rewrite !(nth_indep (map _ p) 0 ((fun j => nth j a 0) 0%nat)) by (rewrite map_length; lia). rewrite (map_nth (fun j => nth j a 0)).
  rewrite !(nth_indep (map _ p) _ ((fun j => nth j b 0) 0%nat)) by (rewrite map_length; lia). now rewrite (map_nth (fun j => nth j b 0)).
Qed.

Section Models.
  Context {F : Type} {N : Num F}.
  Lemma rmap_ext_in {A B} (f g : A -> res B) l : (forall x, In x l -> f x = g x) -> rmap f l = rmap g l.
  Proof. induction l as [|a l IH]; intros H; [reflexivity|]. cbn. rewrite (H a (or_introl eq_refl)), IH; auto. intros x Hx. apply H. now right. Qed.
  Lemma rmap_map' {A B C} (f : B -> res C) (g : A -> B) l : rmap f (map g l) = rmap (fun x => f (g x)) l.
  Proof. induction l as [|a l IH]; [reflexivity|]. cbn. now rewrite IH. Qed.
  Lemma ker_mat_map (ker : Kernel F) n' (T : list F -> list F) Z X : mcols Z = mcols X ->
    (forall a b, In a (mrows Z) -> In b (mrows X) -> ker (T a) (T b) = ker a b) -> ker_mat ker (map_rows n' T Z) (map_rows n' T X) = ker_mat ker Z X.
  Proof.
    intros C H. unfold ker_mat, map_rows, nrows. cbn [mcols mrows]. rewrite C, !Nat.eqb_refl, map_length. cbn [negb]. rewrite rmap_map'.
    f_equal. apply rmap_ext_in. intros a Ha. rewrite rmap_map'. apply rmap_ext_in. intros b Hb. now apply H.
  Qed.
  Lemma ones_map n' (T : list F -> list F) X : with_ones (map_rows n' T X) = map_rows (S n') (fun r => match r with [] => [] | o :: x => o :: T x end) (with_ones X).
  Proof. unfold with_ones, map_rows. cbn [mrows mcols]. now rewrite !map_map. Qed.

  Variable ker : Kernel F.
  Lemma ker_sum_map n' T X a s : (forall b, In b (mrows X) -> ker (nonev :: T a) (nonev :: T b) = ker (nonev :: a) (nonev :: b)) ->
    ker_sum ker (nonev :: T a) (mrows (with_ones (map_rows n' T X))) s = ker_sum ker (nonev :: a) (mrows (with_ones X)) s.
  Proof.
    unfold with_ones, map_rows. cbn [mrows]. generalize (mrows X). intros l. revert s. induction l as [|b l IH]; intros s H; [reflexivity|].
    cbn [map ker_sum]. rewrite (H b (or_introl eq_refl)). destruct (ker (nonev :: a) (nonev :: b)); auto. cbn [rbind]. apply IH. intros c Hc. apply H. now right.
  Qed.
  Lemma body_map n' T self X y t alpha : (forall a b, In a (mrows X) -> In b (mrows X) -> ker (nonev :: T a) (nonev :: T b) = ker (nonev :: a) (nonev :: b)) ->
    svm_body ker self (with_ones (map_rows n' T X)) y t alpha = svm_body ker self (with_ones X) y t alpha.
  Proof.
    intros H. unfold svm_body, gen_range. cbn [rnd_bind]. replace (nrows (with_ones (map_rows n' T X))) with (nrows (with_ones X)) by (unfold nrows, with_ones, map_rows; cbn [mrows]; now rewrite !map_length).
    f_equal. apply functional_extensionality. intros i. f_equal.
    assert (R1 : ridx (mrows (with_ones (map_rows n' T X))) i = rbind (ridx (mrows X) i) (fun a => Ok (nonev :: T a))).
    { unfold ridx, with_ones, map_rows. cbn [mrows]. rewrite !nth_error_map. now destruct (nth_error (mrows X) i). }
    assert (R2 : ridx (mrows (with_ones X)) i = rbind (ridx (mrows X) i) (fun a => Ok (nonev :: a))).
    { unfold ridx, with_ones. cbn [mrows]. rewrite !nth_error_map. now destruct (nth_error (mrows X) i). }
    rewrite R1, R2. clear R1 R2. unfold ridx at 1 4. destruct (nth_error (mrows X) i) as [a|] eqn:E; [|reflexivity]. cbn [rbind].
    rewrite (ker_sum_map n' T X a nzero); [reflexivity|]. intros b Hb. apply H; auto. now apply nth_error_In in E.
  Qed.
  Lemma rnd_for_ext {S} m (b1 b2 : nat -> S -> Rnd S) : (forall t s, b1 t s = b2 t s) -> forall start s, rnd_for start m b1 s = rnd_for start m b2 s.
  Proof. intros H. assert (b1 = b2) by (apply functional_extensionality; intros t; apply functional_extensionality; intros s; apply H). now subst. Qed.
  Lemma rnd_bind_assoc {A B C} (p : Rnd A) (f : A -> Rnd B) (g : B -> Rnd C) : (let! b := (let! a := p in f a) in g b) = (let! a := p in let! b := f a in g b).
  Proof. induction p as [a|hi k IH|]; cbn; auto. f_equal. apply functional_extensionality. auto. Qed.

  Theorem svm_invariant self X y Z n' T : mcols Z = mcols X ->
    (forall a b, In a (mrows Z ++ mrows X) -> In b (mrows X) -> ker (nonev :: T a) (nonev :: T b) = ker (nonev :: a) (nonev :: b)) ->
    (let! m := svm_train ker self (map_rows n' T X) y in RRet (svm_predict ker m (map_rows n' T Z))) = (let! m := svm_train ker self X y in RRet (svm_predict ker m Z)).
  Proof.
    intros C H. unfold svm_train. rewrite !rnd_bind_assoc.
    replace (nrows (map_rows n' T X)) with (nrows X) by (unfold nrows, map_rows; cbn; now rewrite map_length).
    rewrite (rnd_for_ext _ _ (svm_body ker self (with_ones X) y)).
    2:{ intros t s. apply body_map. intros a b Ha Hb. apply H; auto. apply in_app_iff. auto. }
    f_equal. apply functional_extensionality. intros alpha. cbn [rnd_bind]. f_equal. unfold svm_predict. cbn [svm_alpha svm_train_inputs svm_train_targets svm_lambda].
    rewrite !ones_map, ker_mat_map; [reflexivity|unfold with_ones; cbn; now rewrite C|].
    intros a b Ha Hb. unfold with_ones in Ha, Hb. cbn [mrows] in Ha, Hb. apply in_map_iff in Ha, Hb. destruct Ha as (a' & <- & Ha), Hb as (b' & <- & Hb). apply H; auto. apply in_app_iff. auto.
  Qed.
  Theorem gp_invariant mean cholesky solve_l solve_u self X y Z n' T : mcols Z = mcols X ->
    (forall a b, In a (mrows Z ++ mrows X) -> In b (mrows Z ++ mrows X) -> ker (T a) (T b) = ker a b) ->
    mean (map_rows n' T X) = mean X -> mean (map_rows n' T Z) = mean Z ->
    exists m m' r, gp_train ker mean cholesky solve_l solve_u self X y = (m, r) /\ gp_train ker mean cholesky solve_l solve_u self (map_rows n' T X) y = (m', r) /\
      (r = Ok tt -> gp_predict ker mean m' (map_rows n' T Z) = gp_predict ker mean m Z /\
                    gp_get_posterior ker mean solve_l m' (map_rows n' T Z) = gp_get_posterior ker mean solve_l m Z).
  Proof.
    intros C H MX MZ. unfold gp_train. rewrite ker_mat_map; [|reflexivity|intros; apply H; apply in_app_iff; auto].
    replace (nrows (map_rows n' T X)) with (nrows X) by (unfold nrows, map_rows; cbn; now rewrite map_length). rewrite MX.
    destruct (let? km := unwrap (ker_mat ker X X) in _) as [[tm alpha]|k|]; eexists _, _, _; (split; [reflexivity|]); (split; [reflexivity|]); try discriminate.
    intros _. assert (KZX : ker_mat ker (map_rows n' T Z) (map_rows n' T X) = ker_mat ker Z X) by (apply ker_mat_map; auto; intros; apply H; apply in_app_iff; auto).
    assert (KZZ : ker_mat ker (map_rows n' T Z) (map_rows n' T Z) = ker_mat ker Z Z) by (apply ker_mat_map; auto; intros; apply H; apply in_app_iff; auto).
    unfold gp_predict, gp_get_posterior. cbn [gp_alpha gp_train_data gp_train_mat]. now rewrite KZX, KZZ, MZ.
  Qed.
End Models.
Lemma const_mean_rows {F} {N : Num F} (c : F) n' T X : const_mean c (map_rows n' T X) = const_mean c X.
Proof. unfold const_mean, nrows, map_rows. cbn. now rewrite map_length. Qed.
Lemma mwf_row (X : matrix R) a : mwf X -> In a (mrows X) -> length a = mcols X.
Proof. intros W H. exact (proj1 (Forall_forall _ _) W a H). Qed.

Theorem svm_rigid K self X y Z n' T : library_kernel K -> mwf X -> mwf Z -> mcols Z = mcols X -> rigid (mcols X) n' T ->
  (let! m := svm_train K self (map_rows n' T X) y in RRet (svm_predict K m (map_rows n' T Z))) = (let! m := svm_train K self X y in RRet (svm_predict K m Z)).
Proof.
  intros HK WX WZ C HT. apply svm_invariant; auto. intros a b Ha Hb. apply (rigid_kernels K (mcols X) n' T a b HK HT).
  - apply in_app_iff in Ha. destruct Ha as [Ha|Ha]; [rewrite <- C|]; now apply mwf_row.
  - now apply mwf_row.
Qed.
Theorem svm_isometric K self X y Z n' T : distance_kernel K -> mwf X -> mwf Z -> mcols Z = mcols X ->
  similarity (mcols X) n' 1 T (mrows Z ++ mrows X) -> (forall a, In a (mrows Z ++ mrows X) -> length (T a) = n') ->
  (let! m := svm_train K self (map_rows n' T X) y in RRet (svm_predict K m (map_rows n' T Z))) = (let! m := svm_train K self X y in RRet (svm_predict K m Z)).
Proof.
  intros HK WX WZ C HT HL. apply svm_invariant; auto. intros a b Ha Hb. assert (Hb' : In b (mrows Z ++ mrows X)) by (apply in_app_iff; auto).
  apply (isometric_kernels K (mcols X) n' T a b HK); auto.
  - apply in_app_iff in Ha. destruct Ha as [Ha|Ha]; [rewrite <- C|]; now apply mwf_row.
  - now apply mwf_row.
  - rewrite HT; auto. ring.
Qed.
Theorem gp_rigid K mean cholesky solve_l solve_u self X y Z n' T : library_kernel K -> mwf X -> mwf Z -> mcols Z = mcols X -> rigid (mcols X) n' T ->
  mean (map_rows n' T X) = mean X -> mean (map_rows n' T Z) = mean Z ->
  exists m m' r, gp_train K mean cholesky solve_l solve_u self X y = (m, r) /\ gp_train K mean cholesky solve_l solve_u self (map_rows n' T X) y = (m', r) /\
    (r = Ok tt -> gp_predict K mean m' (map_rows n' T Z) = gp_predict K mean m Z /\
                  gp_get_posterior K mean solve_l m' (map_rows n' T Z) = gp_get_posterior K mean solve_l m Z).
Proof.
  intros HK WX WZ C HT. apply gp_invariant; auto.
  assert (L : forall a, In a (mrows Z ++ mrows X) -> length a = mcols X) by (intros a Ha; apply in_app_iff in Ha; destruct Ha as [Ha|Ha]; [rewrite <- C|]; now apply mwf_row).
  intros a b Ha Hb. apply (rigid_kernels K (mcols X) n' T a b HK HT); auto.
Qed.
Theorem gp_isometric K mean cholesky solve_l solve_u self X y Z n' T : distance_kernel K -> mwf X -> mwf Z -> mcols Z = mcols X ->
  similarity (mcols X) n' 1 T (mrows Z ++ mrows X) -> (forall a, In a (mrows Z ++ mrows X) -> length (T a) = n') ->
  mean (map_rows n' T X) = mean X -> mean (map_rows n' T Z) = mean Z ->
  exists m m' r, gp_train K mean cholesky solve_l solve_u self X y = (m, r) /\ gp_train K mean cholesky solve_l solve_u self (map_rows n' T X) y = (m', r) /\
    (r = Ok tt -> gp_predict K mean m' (map_rows n' T Z) = gp_predict K mean m Z /\
                  gp_get_posterior K mean solve_l m' (map_rows n' T Z) = gp_get_posterior K mean solve_l m Z).
Proof.
  intros HK WX WZ C HT HL. apply gp_invariant; auto.
  assert (L : forall a, In a (mrows Z ++ mrows X) -> length a = mcols X) by (intros a Ha; apply in_app_iff in Ha; destruct Ha as [Ha|Ha]; [rewrite <- C|]; now apply mwf_row).
  intros a b Ha Hb. apply (isometric_kernels K (mcols X) n' T a b HK); auto. rewrite HT; auto. ring.
Qed.

(** Concrete cases: a quarter turn, and moving by (5, 7). *)
Definition quarter (a : list R) : list R := [- nth 1 a 0; nth 0 a 0].
Definition KX : matrix R := Mat [[0; 1]; [2; 3]; [4; -1]] 2.
Definition KZ : matrix R := Mat [[1; 1]] 2.
Lemma quarter_rigid : rigid 2 2 quarter.
Proof. intros a b _ _. split; [reflexivity|]. unfold inner, quarter. cbn. ring. Qed.
Lemma kerinv_ex : library_kernel (kernel_sum (k_linear 1) (k_squared_exp 1 1)) /\ mwf KX /\ mwf KZ /\ mcols KZ = mcols KX /\ rigid (mcols KX) 2 quarter /\
  map_rows 2 quarter KX = Mat [[-1; 0]; [-3; 2]; [1; 4]] 2.
Proof.
  repeat apply conj; try (repeat constructor; fail).
  - apply quarter_rigid.
  - unfold map_rows, quarter, KX. cbn. repeat f_equal; ring.
Qed.
(** The linear kernel does see a move: the distance kernels are the ones that do not. *)
Lemma linear_sees_moves : k_linear 0 (moved [1] [0]) (moved [1] [0]) <> k_linear 0 [0] [0].
Proof. unfold k_linear, moved. cbn. intros H. injection H. lra. Qed.
