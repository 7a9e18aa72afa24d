(** * How much answers can change *)
From Coq Require Import List Arith Lia Bool Reals Lra Permutation.
From Verif Require Proof_KMeans2 Proof_KerInv.
From Verif Require Import Base BaseLemmas Num NumOrd NumFn Linalg LinalgR Euclid MatR Spec_Calc CalcR Proof_KMeans Model_Toolkit Proof_Toolkit
  Model_Regression Spec_Regression Proof_Regression Model_NNet Spec_NNet Proof_NNet Proof_NNet2 Model_KNN Spec_KNN Proof_KNearest Proof_KNNEx
  Spec_Succeeds Spec_LSStats Proof_LSStats Spec_Small.
Import ListNotations.
Local Open Scope R_scope.

(** ** Lengths of sums *)
Lemma cauchy_sum n a b : sumR n (fun k => a k * b k) ^ 2 <= sumR n (fun k => a k ^ 2) * sumR n (fun k => b k ^ 2).
Proof.
  pose proof (cauchy (vec n a) (vec n b)) as C. rewrite !(dot_sumR n) in C by apply vec_length.
  rewrite (sumR_ext n (fun i => nth i (vec n a) 0 * nth i (vec n b) 0) (fun k => a k * b k)) in C by (intros; now rewrite !vec_nth).
  rewrite (sumR_ext n (fun i => nth i (vec n a) 0 * nth i (vec n a) 0) (fun k => a k ^ 2)) in C by (intros; rewrite !vec_nth by auto; ring).
  rewrite (sumR_ext n (fun i => nth i (vec n b) 0 * nth i (vec n b) 0) (fun k => b k ^ 2)) in C by (intros; rewrite !vec_nth by auto; ring).
  nra.
Qed.
Lemma sum_sq_ge0 n f : 0 <= sumR n (fun k => f k ^ 2).
Proof. apply sumR_ge0. intros; apply pow2_ge_0. Qed.
Lemma gap_ge0 n a b : 0 <= gap n a b. Proof. apply sqrt_pos. Qed.
Lemma gap_sq n a b : gap n a b ^ 2 = sumR n (fun k => (nth k a 0 - nth k b 0) ^ 2).
Proof. unfold gap. rewrite <- Rsqr_pow2. apply Rsqr_sqrt. apply sum_sq_ge0. Qed.
Lemma weight_sq i o b w : weight_len i o b w ^ 2 = sumR i (fun k => sumR o (fun j => nth ((bias_rows b + k) * o + j) w 0 ^ 2)).
Proof. unfold weight_len. rewrite <- Rsqr_pow2. apply Rsqr_sqrt. apply sumR_ge0. intros. apply sum_sq_ge0. Qed.
Lemma gap_le n a b c : 0 <= c -> sumR n (fun k => (nth k a 0 - nth k b 0) ^ 2) <= c ^ 2 -> gap n a b <= c.
Proof. intros Hc H. unfold gap. rewrite <- (sqrt_pow2 c Hc). now apply sqrt_le_1_alt. Qed.

(** ** Networks *)
Lemma layer_stretch i o (b : bool) (w x x' : list R) :
  gap o (map (fun j => (if b then nth j w 0 else 0) + sumR i (fun k => nth k x 0 * nth ((bias_rows b + k) * o + j) w 0)) (seq 0 o))
        (map (fun j => (if b then nth j w 0 else 0) + sumR i (fun k => nth k x' 0 * nth ((bias_rows b + k) * o + j) w 0)) (seq 0 o))
  <= weight_len i o b w * gap i x x'.
Proof.
  apply gap_le; [apply Rmult_le_pos; [apply sqrt_pos|apply gap_ge0]|].
  rewrite Rpow_mult_distr, weight_sq, gap_sq. rewrite sumR_exch, <- sumR_scal_r'.
  apply sumR_le. intros j Hj. fold (vec o (fun j => (if b then nth j w 0 else 0) + sumR i (fun k => nth k x 0 * nth ((bias_rows b + k) * o + j) w 0))).
  fold (vec o (fun j => (if b then nth j w 0 else 0) + sumR i (fun k => nth k x' 0 * nth ((bias_rows b + k) * o + j) w 0))).
  rewrite !vec_nth by auto.
  replace ((if b then nth j w 0 else 0) + sumR i (fun k => nth k x 0 * nth ((bias_rows b + k) * o + j) w 0) -
     ((if b then nth j w 0 else 0) + sumR i (fun k => nth k x' 0 * nth ((bias_rows b + k) * o + j) w 0)))
    with (sumR i (fun k => nth ((bias_rows b + k) * o + j) w 0 * (nth k x 0 - nth k x' 0))).
  - apply cauchy_sum.
  - rewrite (sumR_ext i _ (fun k => nth k x 0 * nth ((bias_rows b + k) * o + j) w 0 - nth k x' 0 * nth ((bias_rows b + k) * o + j) w 0)) by (intros; ring).
    rewrite sumR_minus. ring.
Qed.
Lemma activ_stretch a c n (x x' : list R) : gentle a c -> length x = n -> length x' = n -> gap n (map (af a) x) (map (af a) x') <= c * gap n x x'.
Proof.
  intros [Hc Ha] L L'. apply gap_le; [apply Rmult_le_pos; [auto|apply gap_ge0]|].
  rewrite Rpow_mult_distr, gap_sq, <- sumR_scal. apply sumR_le. intros k Hk.
  rewrite !(nth_map (af a) _ _ _ 0) by lia. rewrite <- Rpow_mult_distr, <- (pow2_abs (af a _ - af a _)), <- (pow2_abs (c * _)), Rabs_mult, (Rabs_pos_eq c) by auto.
  apply pow_incr. split; [apply Rabs_pos|apply Ha].
Qed.
Lemma stretch_ge0 ks w L : stretch ks w L -> 0 <= L.
Proof.
  induction 1 as [|i o b ks w L H IH|a c ks w L [Hc _] H IH]; [lra| |].
  - apply Rmult_le_pos; [apply sqrt_pos|auto].
  - now apply Rmult_le_pos.
Qed.
Lemma net_stretch ks w L : stretch ks w L -> forall d c x x', widths ks d = Some c -> length x = d -> length x' = d ->
  gap c (net_row ks w x) (net_row ks w x') <= L * gap d x x'.
Proof.
  induction 1 as [|i o b ks w L H IH|a k ks w L G H IH]; intros d c x x' Wd Lx Lx'.
  - cbn in Wd. injection Wd as <-. cbn [net_row]. lra.
  - cbn [widths out_width] in Wd. destruct (Nat.eqb_spec d i) as [E|]; [|discriminate]. subst i. cbn [net_row].
    eapply Rle_trans; [apply (IH o c _ _ Wd); now rewrite map_length, seq_length|].
    pose proof (stretch_ge0 _ _ _ H) as HL. pose proof (layer_stretch d o b w x x') as K.
    apply (Rmult_le_compat_l L) in K; auto. rewrite (Rmult_comm (weight_len d o b w) L), Rmult_assoc. exact K.
  - cbn [widths out_width] in Wd. cbn [net_row].
    eapply Rle_trans; [apply (IH d c _ _ Wd); now rewrite map_length|].
    pose proof (stretch_ge0 _ _ _ H) as HL. pose proof (activ_stretch a k d x x' G Lx Lx') as K.
    apply (Rmult_le_compat_l L) in K; auto. rewrite (Rmult_comm k L), Rmult_assoc. exact K.
Qed.
Lemma mwf_row (X : matrix R) i : mwf X -> (i < nrows X)%nat -> length (mrow X i) = mcols X.
Proof. intros W H. unfold mwf in W. rewrite Forall_forall in W. apply W. now apply nth_In. Qed.

Theorem net_small (net : BaseNeuralNet R) ks X c L :
  nn_layers net = map to_layer ks -> length (nn_weights net) = total_params ks -> mwf X -> widths ks (mcols X) = Some c ->
  stretch ks (nn_weights net) L ->
  exists Y, net_predict net X = Ok Y /\ nrows Y = nrows X /\ mcols Y = c /\
    forall i i', (i < nrows X)%nat -> (i' < nrows X)%nat -> gap c (mrow Y i) (mrow Y i') <= L * gap (mcols X) (mrow X i) (mrow X i').
Proof.
  intros HL Hw W Wd St. exists (Mat (map (net_row ks (nn_weights net)) (mrows X)) c).
  split; [now apply predict_rows|]. split; [apply map_length|]. split; [reflexivity|].
  intros i i' Hi Hi'. unfold mrow at 1 2. cbn [mrows]. rewrite !(nth_map (net_row ks (nn_weights net)) _ _ _ []) by auto.
  apply net_stretch; auto; now apply mwf_row.
Qed.

(** ** Activations *)
Lemma gentle_deriv (a : Activ R) c : 0 <= c -> (forall x, derivable_pt_lim (af a) x (af_grad a x)) -> (forall x, Rabs (af_grad a x) <= c) -> gentle a c.
Proof.
  intros Hc Hd Hb. split; auto.
  assert (K : forall s t, s < t -> Rabs (af a t - af a s) <= c * Rabs (t - s)).
  { intros s t H. destruct (MVT_cor2 (af a) (af_grad a) s t H) as (x & E & _); [intros; apply Hd|].
    rewrite E, Rabs_mult. apply Rmult_le_compat_r; [apply Rabs_pos|auto]. }
  intros s t. destruct (Rtotal_order s t) as [H|[H|H]].
  - rewrite Rabs_minus_sym, (Rabs_minus_sym s t). now apply K.
  - subst t. unfold Rminus. rewrite !Rplus_opp_r, Rabs_R0. lra.
  - now apply K.
Qed.
Lemma gentle_crate : gentle Sigmoid (1 / 4) /\ gentle Tanh 1 /\ gentle LinearAct 1 /\ forall c, ~ gentle Exp c.
Proof.
  destruct sigmoid_ok as (S1 & _ & _ & _ & S5 & _). destruct tanh_ok as (T1 & _ & _ & _ & T5 & _).
  split; [|split; [|split]].
  - apply gentle_deriv; [lra|exact S1|]. intros x. specialize (S5 x). cbn [af_grad Sigmoid].
    change (sigmoid x) with (af Sigmoid x). cbn [nmul nsub nonev NumR]. rewrite Rabs_pos_eq by (cbn [af Sigmoid] in *; nra).
    pose proof (pow2_ge_0 (af Sigmoid x - / 2)). cbn [af Sigmoid] in *. lra.
  - apply gentle_deriv; [lra|exact T1|]. intros x. specialize (T5 x). cbn [af_grad Tanh af] in *. cbn [nmul nsub nonev NumR ntanh NumFnR] in *.
    rewrite Rabs_pos_eq by nra. nra.
  - split; [lra|]. intros s t. cbn. lra.
  - intros c [Hc H]. specialize (H (ln (c + 2) + 1) (ln (c + 2))). cbn in H.
    replace (ln (c + 2) + 1 - ln (c + 2)) with 1 in H by ring. rewrite Rabs_R1, Rmult_1_r in H.
    rewrite exp_plus, exp_ln in H by lra.
    assert (E1 : 2 <= exp 1) by (pose proof (exp_ineq1 1 ltac:(lra)); lra).
    rewrite Rabs_pos_eq in H by nra. nra.
Qed.

(** ** Linear and logistic regression *)
Lemma affine_small p x x' d : length x = d -> length x' = d -> Rabs (affine p x - affine p x') <= slope_len d p * gap d x x'.
Proof.
  intros L L'. unfold affine. rewrite L, L'.
  replace (nth 0 p 0 + sumR d (fun k => nth (S k) p 0 * nth k x 0) - (nth 0 p 0 + sumR d (fun k => nth (S k) p 0 * nth k x' 0)))
    with (sumR d (fun k => nth (S k) p 0 * (nth k x 0 - nth k x' 0))).
  2:{ rewrite (sumR_ext d _ (fun k => nth (S k) p 0 * nth k x 0 - nth (S k) p 0 * nth k x' 0)) by (intros; ring). rewrite sumR_minus. ring. }
  assert (P : 0 <= slope_len d p * gap d x x') by (apply Rmult_le_pos; [apply sqrt_pos|apply gap_ge0]).
  apply Rsqr_incr_0_var; auto. rewrite <- Rsqr_abs. rewrite !Rsqr_pow2. rewrite Rpow_mult_distr, gap_sq. unfold slope_len.
  rewrite <- (Rsqr_pow2 (sqrt _)), Rsqr_sqrt by apply sum_sq_ge0. apply cauchy_sum.
Qed.
Theorem lin_small (self : LinRegressor R) p X : lr_parameters self = Some p -> mwf X -> length p = S (mcols X) ->
  exists out, lr_predict self X = Ok out /\ length out = nrows X /\
    forall i i', (i < nrows X)%nat -> (i' < nrows X)%nat ->
      Rabs (nth i out 0 - nth i' out 0) <= slope_len (mcols X) p * gap (mcols X) (mrow X i) (mrow X i').
Proof.
  intros E W Lp. exists (map (affine p) (mrows X)). rewrite (lr_predict_affine self p X E W), Lp, Nat.eqb_refl.
  split; [reflexivity|]. split; [apply map_length|]. intros i i' Hi Hi'. rewrite !(nth_map (affine p) _ _ _ []) by auto.
  apply affine_small; now apply mwf_row.
Qed.
Theorem log_small (self : LogisticRegressor R) p X : log_parameters self = Some p -> mwf X -> length p = S (mcols X) ->
  exists out, log_predict self X = Ok out /\ length out = nrows X /\
    forall i i', (i < nrows X)%nat -> (i' < nrows X)%nat ->
      Rabs (nth i out 0 - nth i' out 0) <= slope_len (mcols X) p / 4 * gap (mcols X) (mrow X i) (mrow X i').
Proof.
  intros E W Lp. exists (map sigmoid (map (affine p) (mrows X))). split.
  { unfold log_predict. rewrite E. rewrite rmat_vec_eq by (cbn [mcols with_ones]; exact Lp). cbn [rbind]. rewrite mat_vec_ones by auto. reflexivity. }
  split; [now rewrite !map_length|]. intros i i' Hi Hi'. rewrite map_map.
  rewrite !(nth_map (fun x => sigmoid (affine p x)) _ _ _ []) by auto.
  destruct gentle_crate as ((_ & G) & _). eapply Rle_trans; [apply (G (affine p (mrow X i)) (affine p (mrow X i')))|].
  pose proof (affine_small p (mrow X i) (mrow X i') (mcols X) (mwf_row _ _ W Hi) (mwf_row _ _ W Hi')) as K.
  unfold Rdiv in *. lra.
Qed.

(** ** Targets *)
Theorem targets_small solve (X : matrix R) y y' p p' : solver_sound solve -> mwf X -> learns solve X y p -> learns solve X y' p' ->
  sumR (nrows X) (fun i => (affine p (mrow X i) - affine p' (mrow X i)) ^ 2) <= sumR (nrows X) (fun i => (nth i y 0 - nth i y' 0) ^ 2).
Proof.
  intros Ss W H H'. destruct (learns_fit X W solve _ _ Ss H) as (_ & _ & F). destruct (learns_fit X W solve _ _ Ss H') as (_ & _ & F').
  pose proof (fit_lin X 1 (-1) _ _ _ _ F F') as G.
  pose proof (fit_rss X _ _ G) as A. pose proof (fit_self X _ _ G) as Bq. cbv beta in A, Bq.
  assert (P : 0 <= sumR (nrows X) (fun i => (1 * cf y i + -1 * cf y' i - aff X (fun k => 1 * cf p k + -1 * cf p' k) i) ^ 2)) by apply sum_sq_ge0.
  assert (E1 : sumR (nrows X) (fun i => (1 * cf y i + -1 * cf y' i) ^ 2) = sumR (nrows X) (fun i => (nth i y 0 - nth i y' 0) ^ 2))
    by (apply sumR_ext; intros; unfold cf; ring).
  assert (E2 : sumR (nrows X) (fun i => aff X (fun k => 1 * cf p k + -1 * cf p' k) i ^ 2) =
     sumR (nrows X) (fun i => (affine p (mrow X i) - affine p' (mrow X i)) ^ 2)).
  { apply sumR_ext. intros i Hi. rewrite aff_lin. unfold mrow. rewrite !affine_aff by auto. ring. }
  rewrite <- E1, <- E2. lra.
Qed.

(** ** Neighbours *)
Lemma nearest_close n k (D D' : nat -> R) idx ds idx' ds' e : (forall i, (i < n)%nat -> Rabs (D i - D' i) <= e) ->
  k_nearest n k D idx ds -> k_nearest n k D' idx' ds' -> forall t, (t < k)%nat -> nth t ds 0 <= nth t ds' 0 + e.
Proof.
  intros Hd ((ND & Hr & Hds & So) & Lk & Hn) ((ND' & Hr' & Hds' & So') & Lk' & Hn') t Ht.
  destruct (Rle_lt_dec (nth t ds 0) (nth t ds' 0 + e)) as [|K]; auto. exfalso.
  assert (Ld : length ds = k) by (rewrite Hds, map_length; exact Lk). assert (Ld' : length ds' = k) by (rewrite Hds', map_length; exact Lk').
  assert (V : forall a, (a < k)%nat -> nth a ds 0 = D (nth a idx 0%nat)) by (intros a Ha; rewrite Hds; apply nth_map; lia).
  assert (V' : forall a, (a < k)%nat -> nth a ds' 0 = D' (nth a idx' 0%nat)) by (intros a Ha; rewrite Hds'; apply nth_map; lia).
  assert (Mono : forall a b, (a <= b)%nat -> (b < k)%nat -> nth a ds 0 <= nth b ds 0).
  { intros a b Hab Hb. destruct (Nat.eq_dec a b) as [->|]; [lra|]. specialize (So a b ltac:(lia) ltac:(lia)). cbn in So.
    destruct (Rlt_dec (nth b ds 0) (nth a ds 0)); [discriminate|lra]. }
  assert (Mono' : forall a b, (a <= b)%nat -> (b < k)%nat -> nth a ds' 0 <= nth b ds' 0).
  { intros a b Hab Hb. destruct (Nat.eq_dec a b) as [->|]; [lra|]. specialize (So' a b ltac:(lia) ltac:(lia)). cbn in So'.
    destruct (Rlt_dec (nth b ds' 0) (nth a ds' 0)); [discriminate|lra]. }
  (* the first t+1 rows found for the second query are closer to the first one than its t-th row *)
  assert (C : forall j, In j (firstn (S t) idx') -> D j < nth t ds 0 /\ (j < n)%nat).
  { intros j Hj. destruct (In_nth _ _ 0%nat Hj) as (a & Ha & E). rewrite firstn_length in Ha.
    assert (Ej : nth a idx' 0%nat = j).
    { rewrite <- E. rewrite <- (firstn_skipn (S t) idx') at 1. rewrite app_nth1; [reflexivity|]. rewrite firstn_length. lia. }
    assert (Hj' : (j < n)%nat) by (apply Hr'; rewrite <- Ej; apply nth_In; lia). split; auto.
    pose proof (Mono' a t ltac:(lia) Ht) as M. rewrite V' in M by lia. rewrite Ej in M. specialize (Hd j Hj'). 
    unfold Rabs in Hd. destruct (Rcase_abs (D j - D' j)); lra. }
  assert (I : incl (firstn (S t) idx') (firstn t idx)).
  { intros j Hj. destruct (C j Hj) as (C1 & C2).
    destruct (in_dec Nat.eq_dec j idx) as [Ij|Nj].
    - destruct (In_nth _ _ 0%nat Ij) as (a & Ha & E).
      destruct (Nat.lt_ge_cases a t) as [At|At].
      + rewrite <- E. rewrite <- (firstn_skipn t idx) at 1. rewrite app_nth1 by (rewrite firstn_length; lia). apply nth_In. rewrite firstn_length. lia.
      + exfalso. pose proof (Mono t a At ltac:(lia)) as M. rewrite (V a) in M by lia. rewrite E in M. lra.
    - exfalso. assert (It : In (nth t idx 0%nat) idx) by (apply nth_In; lia).
      specialize (Hn _ j It C2 Nj). cbn in Hn. rewrite (V t Ht) in C1. destruct (Rlt_dec (D j) (D (nth t idx 0%nat))); [discriminate|contradiction]. }
  assert (N1 : NoDup (firstn (S t) idx')).
  { rewrite <- (firstn_skipn (S t) idx') in ND'. clear -ND'. induction (firstn (S t) idx'); [constructor|].
    inversion ND'; subst. constructor; auto. intros H. apply H1. apply in_or_app. now left. }
  pose proof (NoDup_incl_length N1 I) as Q. rewrite !firstn_length in Q. lia.
Qed.

Lemma euclid_gap n a b : euclid n a b = gap n a b.
Proof.
  apply Rsqr_inj; [apply sqrt_pos|apply gap_ge0|]. rewrite !Rsqr_pow2, gap_sq. apply Proof_KMeans2.euclid_sq.
Qed.
Lemma euclid_triangle n a b c : length a = n -> length b = n -> length c = n -> euclid n a c <= euclid n a b + euclid n b c.
Proof.
  intros La Lb Lc. pose proof (d2_triangle a b c ltac:(congruence) ltac:(congruence)) as T. unfold d2 in T.
  rewrite !(Proof_KerInv.dist_euclid n) in T by auto. rewrite !sqrt_pow2 in T by apply sqrt_pos. exact T.
Qed.
Theorem knn_small (data : matrix R) x x' k : mwf data -> length x = mcols data -> length x' = mcols data -> (1 <= k <= nrows data)%nat ->
  exists idx ds idx' ds', brute_search (Some data) x k = Ok (idx, ds) /\ brute_search (Some data) x' k = Ok (idx', ds') /\
    length ds = k /\ length ds' = k /\ forall t, (t < k)%nat -> Rabs (nth t ds 0 - nth t ds' 0) <= gap (mcols data) x x'.
Proof.
  intros W L L' Hk. destruct (brute_real data x k W L Hk) as (idx & ds & E & Q). destruct (brute_real data x' k W L' Hk) as (idx' & ds' & E' & Q').
  exists idx, ds, idx', ds'. split; [exact E|]. split; [exact E'|].
  assert (Ld : length ds = k) by (destruct Q as ((_ & _ & -> & _) & Lk & _); now rewrite map_length).
  assert (Ld' : length ds' = k) by (destruct Q' as ((_ & _ & -> & _) & Lk & _); now rewrite map_length).
  split; [exact Ld|]. split; [exact Ld'|].
  set (D := fun i => euclid (mcols data) x (nth i (mrows data) [])). set (D' := fun i => euclid (mcols data) x' (nth i (mrows data) [])).
  assert (C : forall i, (i < nrows data)%nat -> Rabs (D i - D' i) <= gap (mcols data) x x').
  { intros i Hi. pose proof (mwf_row data i W Hi) as Lr. unfold mrow in Lr.
    pose proof (euclid_triangle _ x x' _ L L' Lr) as A. pose proof (euclid_triangle _ x' x _ L' L Lr) as B.
    assert (S : euclid (mcols data) x' x = euclid (mcols data) x x').
    { rewrite !euclid_gap. unfold gap. f_equal. apply sumR_ext. intros; ring. }
    rewrite S in B. rewrite euclid_gap in A, B. unfold D, D'. apply Rabs_le. rewrite euclid_gap in A. rewrite euclid_gap in B.
    rewrite !euclid_gap in *. lra. }
  intros t Ht. pose proof (nearest_close _ k D D' _ _ _ _ _ C Q Q' t Ht) as A.
  assert (C' : forall i, (i < nrows data)%nat -> Rabs (D' i - D i) <= gap (mcols data) x x') by (intros i Hi; rewrite Rabs_minus_sym; auto).
  pose proof (nearest_close _ k D' D _ _ _ _ _ C' Q' Q t Ht) as B. apply Rabs_le. lra.
Qed.

(** ** Networks without a non-linear activation *)
Definition affine_rows (d c : nat) (be : nat -> R) (A : nat -> nat -> R) (x : list R) : list R :=
  vec c (fun j => be j + sumR d (fun k => nth k x 0 * A k j)).

Lemma linear_net ks : all_linear ks -> forall w d c, widths ks d = Some c -> exists be A, forall x, length x = d -> net_row ks w x = affine_rows d c be A x.
Proof.
  induction ks as [|k ks IH]; intros Al w d c Wd.
  - cbn in Wd. injection Wd as <-. exists (fun _ => 0), (fun k j => if (k =? j)%nat then 1 else 0). intros x L. cbn [net_row].
    apply (list_ext_nth _ _ d); [exact L|apply vec_length|]. intros j Hj. unfold affine_rows. rewrite vec_nth by auto.
    rewrite (sumR_single d _ j Hj).
    + rewrite Nat.eqb_refl. ring.
    + intros i Hi Ni. destruct (Nat.eqb_spec i j); [contradiction|]. ring.
  - assert (Al' : all_linear ks) by (intros a Ha; apply Al; now right).
    destruct k as [i o b|a]; cbn [widths out_width] in Wd.
    + destruct (Nat.eqb_spec d i) as [E|]; [|discriminate]. subst i.
      destruct (IH Al' (skipn ((bias_rows b + d) * o) w) o c Wd) as (be & A & H).
      set (b0 := fun m => if b then nth m w 0 else 0). set (Wt := fun k m => nth ((bias_rows b + k) * o + m) w 0).
      exists (fun j => be j + sumR o (fun m => b0 m * A m j)), (fun k j => sumR o (fun m => Wt k m * A m j)).
      intros x L. cbn [net_row]. rewrite H by now rewrite map_length, seq_length.
      unfold affine_rows. apply map_ext_in. intros j _. rewrite Rplus_assoc. f_equal.
      transitivity (sumR o (fun m => b0 m * A m j + sumR d (fun k => nth k x 0 * (Wt k m * A m j)))).
      * apply sumR_ext. intros m Hm. fold (vec o (fun j => (if b then nth j w 0 else 0) + sumR d (fun k => nth k x 0 * nth ((bias_rows b + k) * o + j) w 0))).
        rewrite vec_nth by auto. rewrite Rmult_plus_distr_r. f_equal. rewrite <- sumR_scal_r'. apply sumR_ext. intros; unfold Wt; ring.
      * rewrite sumR_plus. f_equal. rewrite sumR_exch. apply sumR_ext. intros k _. now rewrite sumR_scal.
    + destruct (IH Al' w d c Wd) as (be & A & H). exists be, A. intros x L. cbn [net_row].
      assert (E : map (af a) x = x). { rewrite <- (map_id x) at 2. apply map_ext. apply (Al a). now left. }
      rewrite E. now apply H.
Qed.
Lemma one_layer d c be A : exists w', length w' = ((1 + d) * c)%nat /\
  forall x, length x = d -> net_row [KLinear d c true] w' x = affine_rows d c be A x.
Proof.
  set (g := fun q => match (q / c)%nat with O => be (q mod c)%nat | S k => A k (q mod c)%nat end).
  exists (vec ((1 + d) * c) g). split; [apply vec_length|]. intros x L. cbn [net_row]. unfold affine_rows. apply map_ext_in.
  intros j Hj. apply in_seq in Hj.
  assert (V : forall r, (r <= d)%nat -> nth (r * c + j) (vec ((1 + d) * c) g) 0 = match r with O => be j | S k => A k j end).
  { intros r Hr. rewrite vec_nth by nia. unfold g. rewrite Nat.div_add_l, Nat.div_small, Nat.add_0_r by lia.
    rewrite Nat.add_comm, Nat.mod_add, Nat.mod_small by lia. reflexivity. }
  f_equal.
  - exact (V 0%nat ltac:(lia)).
  - apply sumR_ext. intros k Hk. f_equal. exact (V (S k) ltac:(lia)).
Qed.
Theorem linear_depth (net : BaseNeuralNet R) ks d c :
  nn_layers net = map to_layer ks -> length (nn_weights net) = total_params ks -> widths ks d = Some c -> all_linear ks ->
  exists w', length w' = ((1 + d) * c)%nat /\ forall X, mwf X -> mcols X = d ->
    net_predict net X = net_predict {| nn_layers := [linear_layer (linear_new d c)]; nn_weights := w'; nn_criterion := nn_criterion net |} X.
Proof.
  intros HL Hw Wd Al. destruct (linear_net ks Al (nn_weights net) d c Wd) as (be & A & H). destruct (one_layer d c be A) as (w' & Lw & H').
  exists w'. split; auto. intros X W E. subst d.
  rewrite (predict_rows net ks X c HL Hw W Wd).
  rewrite (predict_rows {| nn_layers := [linear_layer (linear_new (mcols X) c)]; nn_weights := w'; nn_criterion := nn_criterion net |} [KLinear (mcols X) c true] X c); auto.
  - do 2 f_equal. apply map_ext_in. intros x Hx. unfold mwf in W. rewrite Forall_forall in W. specialize (W x Hx). cbn [nn_weights]. rewrite H', H; auto.
  - cbn [nn_weights]. rewrite Lw. unfold total_params, kparams. cbn. lia.
  - cbn. now rewrite Nat.eqb_refl.
Qed.
