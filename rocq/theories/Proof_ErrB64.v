(** * Accuracy of nearest neighbours, k-means predictions, linear predictions and the mean squared error in binary64 *)
From Coq Require Import List Arith Bool Reals ZArith Lia Lra.
From Flocq Require Import Core BinarySingleNaN.
From Verif Require Import Base BaseLemmas Num NumF NumFn B64Lemmas NumOrd Linalg LinalgR Spec_Calc CalcR Model_KNN Spec_KNN Model_KMeans Spec_KMeans Model_Cost Spec_Cost Model_Regression
  Proof_Cost Proof_KNNEx Proof_KMeans Spec_B64 B64Err Proof_ScoreB64 Proof_KernelB64 Proof_DistB64.
Import ListNotations.
Local Open Scope R_scope.

Lemma row_len {F} (m : matrix F) i : mwf m -> (i < nrows m)%nat -> length (nth i (mrows m) []) = mcols m.
Proof. unfold mwf. rewrite Forall_forall. intros H Hi. apply H. now apply nth_In. Qed.
(** ** Nearest neighbours *)
Lemma euclid_nonneg n a b : 0 <= euclid n a b.
Proof. apply R_sqrt.sqrt_pos. Qed.
Lemma nltb_finite_false (x y : B64) : is_finite x = true -> is_finite y = true -> nltb x y = false -> B2R y <= B2R x.
Proof. intros Fx Fy H. apply phi_ltb_false in H; try (now apply finite_nan). now rewrite !phi_finite in H. Qed.
Lemma moderate_finite l : moderate l -> finite_list l.
Proof. intros H x Hx. now apply H. Qed.
Lemma brute_true (data : matrix B64) (point : list B64) (k : nat) :
  mwf data -> length point = mcols data -> moderate_dim (mcols data) -> moderate point -> (forall r, In r (mrows data) -> moderate r) -> (1 <= k <= nrows data)%nat ->
  let D := fun i => true_dist (mcols data) point (nth i (mrows data) []) in
  exists idx ds, brute_search (Some data) point k = Ok (idx, ds) /\ length idx = k /\ NoDup idx /\ (forall i, In i idx -> (i < nrows data)%nat) /\
    (forall i, (i < k)%nat -> close_to (B2R (nth i ds nzero)) (D (nth i idx 0%nat))) /\
    (forall i j, In i idx -> (j < nrows data)%nat -> ~ In j idx -> D i <= (1 + bpow radix2 (-29)) * D j + bpow radix2 (-524)).
Proof.
  intros W L Md Mp Mr K D. destruct (brute_b64 data point k) as (idx & ds & E & ((N & I & S & _) & Lk & Q)); auto.
  - intros i Hi. apply moderate_finite. apply Mr. now apply nth_In.
  - now apply moderate_finite.
  - assert (C : forall i, (i < nrows data)%nat -> is_finite (dist point (nth i (mrows data) [])) = true /\ close_to (B2R (dist point (nth i (mrows data) []))) (D i)).
    { intros i Hi. destruct (dist_close (mcols data) point (nth i (mrows data) [])) as (F & _ & C); auto. - now apply row_len. - apply Mr. now apply nth_In. }
    exists idx, ds. split; auto. split; auto. split; auto. split; auto. split.
    + intros i Hi. rewrite S. rewrite (nth_indep _ nzero (dist point (nth 0 (mrows data) []))) by (rewrite map_length; lia).
      rewrite (map_nth (fun i => dist point (nth i (mrows data) []))). apply C. apply I. apply nth_In. lia.
    + intros i j Hi Hj Nj. specialize (Q i j Hi Hj Nj). destruct (C i (I i Hi)) as [Fi Ci]. destruct (C j Hj) as [Fj Cj].
      apply nltb_finite_false in Q; auto. eapply close_compare; eauto; apply euclid_nonneg.
Qed.

(** ** k-means predictions *)
Definition sq_close (v d : R) : Prop := Rabs (v - d) <= bpow radix2 (-31) * d + bpow radix2 (-1054).
Lemma sqdist_close n (a b : list B64) : length a = n -> length b = n -> moderate a -> moderate b -> moderate_dim n ->
  is_finite (Model_KMeans.sqdist a b) = true /\ sq_close (B2R (Model_KMeans.sqdist a b)) (true_dist n a b ^ 2).
Proof.
  intros La Lb Ma Mb Md. rewrite sqdist_sqs. assert (Fs : is_finite (vsum (sqs a b)) = true) by (apply sumsq_finite; auto; now rewrite La).
  split; auto. pose proof (sumsq_err n a b La Lb Fs) as [_ E]. unfold true_dist, real_vec. rewrite (euclid_sq n) by auto.
  pose proof (rsum_nonneg a b) as P. replace (sqrt (rsum (rsqs a b)) ^ 2) with (rsum (rsqs a b)) by (cbn; rewrite Rmult_1_r, sqrt_sqrt; auto).
  unfold sq_close. eapply Rle_trans; [exact E|]. apply Rplus_le_compat; [|now apply tiny_bound]. apply Rmult_le_compat_r; auto.
  apply Rle_trans with ((1 + u64) ^ (4 + n) - 1); [|now apply dims_gamma]. apply Rplus_le_compat_r. apply pow_u_le. lia.
Qed.
Lemma sq_compare v w d e : 0 <= d -> 0 <= e -> sq_close v d -> sq_close w e -> v <= w -> d <= (1 + bpow radix2 (-29)) * e + bpow radix2 (-1052).
Proof.
  intros Hd He A B V. unfold sq_close in *. apply Rabs_le_inv in A, B.
  replace (bpow radix2 (-29)) with (4 * bpow radix2 (-31)) by (change 4 with (bpow radix2 2); rewrite <- bpow_plus; reflexivity).
  replace (bpow radix2 (-1052)) with (4 * bpow radix2 (-1054)) by (change 4 with (bpow radix2 2); rewrite <- bpow_plus; reflexivity).
  assert (K : 0 < bpow radix2 (-31) <= / 4) by (split; [apply bpow_gt_0|]; change (/ 4) with (bpow radix2 (-2)); apply bpow_le; lia).
  pose proof (bpow_gt_0 radix2 (-1054)) as T. set (g := bpow radix2 (-31)) in *. set (t := bpow radix2 (-1054)) in *. clearbody g t.
  assert (M : (1 - g) * d <= (1 + g) * e + 2 * t) by lra.
  assert (N : (1 + g) * e + 2 * t <= (1 - g) * ((1 + 4 * g) * e + 4 * t)).
  { assert (0 <= g * e) by nra. assert (g * (g * e) <= / 4 * (g * e)) by (apply Rmult_le_compat_r; lra). assert (g * t <= / 4 * t) by (apply Rmult_le_compat_r; lra). nra. }
  apply Rmult_le_reg_l with (1 - g); lra.
Qed.
Lemma kmeans_true (m : KMeans B64) (C M : matrix B64) :
  km_centroids m = Some C -> mwf C -> mwf M -> mcols C = mcols M -> (0 < nrows C)%nat -> moderate_dim (mcols M) ->
  (forall r, In r (mrows C) -> moderate r) -> (forall r, In r (mrows M) -> moderate r) ->
  exists idx, km_predict m M = Ok idx /\ length idx = nrows M /\
    forall i, (i < nrows M)%nat -> (nth i idx 0 < nrows C)%nat /\
      forall c, (c < nrows C)%nat ->
        true_dist (mcols M) (nth (nth i idx 0%nat) (mrows C) []) (nth i (mrows M) []) ^ 2 <=
        (1 + bpow radix2 (-29)) * true_dist (mcols M) (nth c (mrows C) []) (nth i (mrows M) []) ^ 2 + bpow radix2 (-1052).
Proof.
  intros HC WC WM Hc NC Md MC MM.
  assert (S : forall x i, In x (mrows M) -> (i < nrows C)%nat -> is_finite (Model_KMeans.sqdist (nth i (mrows C) []) x) = true /\
    sq_close (B2R (Model_KMeans.sqdist (nth i (mrows C) []) x)) (true_dist (mcols M) (nth i (mrows C) []) x ^ 2)).
  { intros x i Hx Hi. apply sqdist_close; auto.
    - rewrite <- Hc. now apply row_len.
    - unfold mwf in WM. rewrite Forall_forall in WM. now apply WM.
    - apply MC. now apply nth_In. }
  destruct (predict_gen m C M HC Hc NC) as (idx & E & L & Q).
  { intros x i Hx Hi. apply finite_nan. now apply S. }
  exists idx. split; auto. split; auto. intros i Hi. destruct (Q i Hi) as (Q1 & Q2 & _). split; auto. intros c Hcc.
  assert (Hx : In (nth i (mrows M) []) (mrows M)) by (now apply nth_In).
  destruct (S _ _ Hx Q1) as [F1 S1]. destruct (S _ _ Hx Hcc) as [F2 S2]. specialize (Q2 c Hcc). apply nltb_finite_false in Q2; auto.
  eapply sq_compare; eauto; apply pow2_ge_0.
Qed.

(** ** Linear predictions *)
Lemma dot_err (x y : list B64) : length x = length y -> is_finite (dot x y) = true ->
  err (S (length x)) (INR (length x) * h64 * (1 + u64) ^ length x) (B2R (dot x y)) (rsum (map2 Rmult (real_vec x) (real_vec y))) (rsum (map2 (fun a b => Rabs (a * b)) (real_vec x) (real_vec y))).
Proof.
  intros L F. destruct (fold_finite _ _ F) as [_ FF].
  assert (E : errs 1 h64 (map2 nmul x y) (map2 Rmult (real_vec x) (real_vec y)) (map2 (fun a b => Rabs (a * b)) (real_vec x) (real_vec y))).
  { clear F. revert y L FF. induction x as [|a x IH]; intros [|b y] L FF; try discriminate; cbn [map2 real_vec map]; constructor.
    - cbn [map2] in FF. inversion FF as [|? ? F1 F2]; subst. destruct (nmul_finite_inv _ _ F1) as [Fa Fb]. rewrite (finite_rnd _ _ (mul_rounds a b Fa Fb) F1).
      eapply err_mono; [apply le_n| |apply (err_round 0 0 _ _ _ (Rle_refl 0) (err_exact _))]. lra.
    - cbn [map2] in FF. inversion FF; subst. apply IH; auto. }
  pose proof (vsum_err 1 h64 _ _ _ (Rlt_le _ _ h64_pos) E F) as Q. rewrite map2_length in Q by auto. exact Q.
Qed.
Lemma one_b64 : B2R (@nonev B64 NumB64) = 1. Proof. exact (proj2 one_real). Qed.
Lemma linear_true (m : LinRegressor B64) (w : list B64) (M : matrix B64) : lr_parameters m = Some w -> mwf M -> length w = S (mcols M) ->
  exists out, lr_predict m M = Ok out /\ length out = nrows M /\
    forall i, (i < nrows M)%nat -> is_finite (nth i out nzero) = true ->
      let x := 1 :: real_vec (nth i (mrows M) []) in let n := S (mcols M) in
      Rabs (B2R (nth i out nzero) - real_dot x (real_vec w)) <=
        ((1 + u64) ^ S n - 1) * abs_dot x (real_vec w) + INR n * h64 * (1 + u64) ^ n.
Proof.
  intros E W L. unfold lr_predict. rewrite E. unfold rmat_vec, rassert, with_ones. cbn [mcols]. rewrite <- L, Nat.eqb_refl. eexists. split; [reflexivity|].
  unfold mat_vec. cbn [mrows]. rewrite map_map, map_length. split; [reflexivity|]. intros i Hi F. cbv zeta.
  assert (X : nth i (map (fun r => dot (nonev :: r) w) (mrows M)) nzero = dot (nonev :: nth i (mrows M) []) w).
  { rewrite (nth_indep _ nzero (dot (nonev :: []) w)) by (rewrite map_length; exact Hi). now rewrite (map_nth (fun r => dot (nonev :: r) w)). }
  rewrite X in *. assert (Lx : length (nonev :: nth i (mrows M) []) = length w) by (cbn [length]; rewrite L, (row_len M) by auto; reflexivity).
  destruct (dot_err _ _ Lx F) as [_ Q]. rewrite Lx, L in Q. unfold real_vec at 1 3 in Q. cbn [map] in Q. rewrite one_b64 in Q. rewrite L. exact Q.
Qed.

(** ** Mean squared error *)
Lemma mse_rows (o t : matrix B64) : mrows (mzip nmul (mzip nsub o t) (mzip nsub o t)) = map2 sqs (mrows o) (mrows t).
Proof.
  unfold mzip; cbn [mrows]. generalize (mrows t). induction (mrows o) as [|r l IH]; intros [|s l']; cbn [map2]; auto.
  rewrite IH. f_equal. clear. unfold sqs. revert s; induction r as [|x r IH]; intros [|y s]; cbn [map2]; auto. now rewrite IH.
Qed.
Definition rrows (o t : matrix B64) : list R := map2 (fun a b => rsum (rsqs a b)) (mrows o) (mrows t).
Lemma rrows_mse (o t : matrix B64) : mwf o -> mwf t -> same_shape o t = true -> rsum (rrows o t) / INR (nrows o) = mean_squared_error (real_mat o) (real_mat t).
Proof.
  intros Wo Wt S. unfold mean_squared_error. replace (nrows (real_mat o)) with (nrows o) by (unfold nrows, real_mat; cbn; now rewrite map_length). f_equal.
  assert (V : forall m, mwf m -> mwf (real_mat m)). { intros m H. unfold mwf, real_mat in *. cbn. apply Forall_map. eapply Forall_impl; [|exact H]. intros a Ha. unfold real_vec. now rewrite map_length. }
  assert (SR : same_shape (real_mat o) (real_mat t) = true). { unfold same_shape, nrows, real_mat in *. cbn. now rewrite !map_length. }
  pose proof (mse_cost_entries _ _ (V o Wo) (V t Wt) SR) as E1. rewrite mse_cost_R in E1 by auto. injection E1 as E1.
  assert (NR : nrows (real_mat o) = nrows o) by (unfold nrows, real_mat; cbn; now rewrite map_length). rewrite NR in E1.
  destruct (Nat.eq_dec (nrows o) 0) as [Z|Z].
  - assert (mrows o = []) by (unfold nrows in Z; destruct (mrows o); [auto|discriminate]). unfold rrows, sum_entries. rewrite H, Z. reflexivity.
  - assert (P : 0 < INR (nrows o)) by (apply lt_0_INR; lia). apply Rmult_eq_reg_r with (/ (2 * INR (nrows o))); [|apply Rinv_neq_0_compat; lra].
    refine (eq_trans _ E1). unfold Rdiv. f_equal. unfold msumf, rrows, real_mat, mzip. cbn [mrows]. clear. generalize (mrows t). induction (mrows o) as [|r l IH]; intros [|s l']; cbn [map map2 rsum]; auto.
    rewrite IH. f_equal. clear. unfold rsqs. revert s; induction r as [|x r IH]; intros [|y s]; cbn [map map2 rsum real_vec]; auto. unfold real_vec in IH. rewrite IH. ring.
Qed.
Lemma Bdiv_zero_inv (x y : B64) : is_finite (ndiv x y) = true -> is_finite y = true -> is_finite x = true.
Proof. destruct x as [s|s| |s m e b], y as [s'|s'| |s' m' e' b']; cbn; auto; discriminate. Qed.
Lemma double_format (c : B64) : rnd64 (-2 * B2R c) = -2 * B2R c.
Proof.
  apply round_generic; [apply valid_rnd_N|]. change (SpecFloat.fexp 53 1024) with (FLT_exp (-1074) 53).
  destruct (FLT_format_B2R 53 1024 prec64 c) as [f H1 H2 H3]. apply generic_format_FLT.
  exists (Float radix2 (- Fnum f) (Fexp f + 1)); cbn [Fnum Fexp].
  - rewrite H1. unfold F2R. cbn [Fnum Fexp]. rewrite bpow_plus, opp_IZR. change (bpow radix2 1) with 2. ring.
  - now rewrite Z.abs_opp.
  - change (SpecFloat.emin 53 1024) with (-1074)%Z in H3. lia.
Qed.
Lemma nneg_sqs (a b : list B64) : finite_vec a -> finite_vec b -> Forall nneg (sqs a b).
Proof.
  intros Ha. revert b. induction Ha as [|x a Hx _ IH]; intros [|y b] Hb; cbn [sqs map2]; constructor; inversion Hb; subst.
  - apply nneg_sq. now apply sub_rounds.
  - now apply IH.
Qed.
Lemma nneg_msum (o t : matrix B64) : finite_mat o -> finite_mat t -> nneg (vsum (map vsum (map2 sqs (mrows o) (mrows t)))).
Proof.
  intros Ho. unfold finite_mat. generalize (mrows t). intros l Ht. apply nneg_fold; [|apply nneg_zero]. revert l Ht.
  unfold finite_mat in Ho. induction Ho as [|r lo Hr _ IH]; intros [|s l] Ht; cbn [map2 map]; constructor; inversion Ht; subst; [|now apply IH].
  apply nneg_fold; [|apply nneg_zero]. now apply nneg_sqs.
Qed.
Lemma two_b64 : is_real (nadd nonev nonev) (INR 2).
Proof. apply (add_count _ _ 1 1); auto using one_real. unfold exact_count. lia. Qed.
Lemma div_rounds (x y : B64) : is_finite x = true -> is_finite y = true -> 0 < B2R y -> rounds_to (ndiv x y) (B2R x / B2R y).
Proof.
  intros Fx Fy Py. pose proof (Bdiv_correct 53 1024 prec64 emax64 mode_NE x y ltac:(lra)) as Q. fold top64 in Q.
  change (round radix2 (SpecFloat.fexp 53 1024) (round_mode mode_NE)) with rnd64 in Q.
  destruct (Rlt_bool_spec (Rabs (rnd64 (B2R x / B2R y))) top64) as [C|C].
  - destruct Q as (Q1 & Q2 & _). rewrite Fx in Q2. split; [now apply finite_nan|]. rewrite phi_finite by auto.
    change (ndiv x y) with (Bdiv mode_NE x y). now rewrite Q1, fr_in.
  - apply phi_overflow in Q. destruct Q as [Q1 Q3]. split; auto. change (ndiv x y) with (Bdiv mode_NE x y). rewrite Q3.
    assert (Sy : Bsign y = false). { destruct (Bsign y) eqn:K; auto. apply Bsign_neg in K; auto. lra. } rewrite Sy, xorb_false_r.
    assert (Iy : 0 < / B2R y) by (now apply Rinv_0_lt_compat).
    destruct (Bsign x) eqn:Sx.
    + apply Bsign_neg in Sx; auto. rewrite fr_neg_over; auto; [lra|]. unfold Rdiv. nra.
    + apply Bsign_pos in Sx; auto. rewrite fr_pos_over; auto; [lra|]. unfold Rdiv. nra.
Qed.
Lemma nneg_div (d q : B64) : nneg d -> is_finite q = true -> 0 < B2R q -> nneg (ndiv d q).
Proof.
  intros [D1 D2] Fq Pq. destruct (is_finite d) eqn:Fd.
  - destruct (div_rounds d q Fd Fq Pq) as [A B]. split; auto. rewrite B. apply fr_nonneg. rewrite phi_finite in D2 by auto.
    apply Rmult_le_pos; auto. left. now apply Rinv_0_lt_compat.
  - destruct d as [s|s| |s m e b]; try discriminate. cbn [phi] in D2. destruct s; [generalize top64_pos; lra|].
    destruct q as [s|s| |s m e b]; try discriminate; [cbn in Pq; lra|]. destruct s; [|split; [reflexivity|apply Rlt_le, top64_pos]].
    exfalso. revert Pq. apply Rle_not_lt. apply Rlt_le, F2R_lt_0. cbn. lia.
Qed.
(** Multiplication by -2. *)
Lemma minus_two : is_real (nopp (nadd nonev nonev)) (-2).
Proof. destruct two_b64 as [F V]. change (INR 2) with 2 in V. split; [now rewrite <- is_finite_Bopp in F|]. change (nopp (nadd nonev nonev)) with (Bopp (nadd nonev nonev : B64)). rewrite B2R_Bopp, V. lra. Qed.
Lemma neg_double (c : B64) : nneg c -> Bleb (nmul (nopp (nadd nonev nonev)) c) (B754_zero false) = true /\
  (is_finite (nmul (nopp (nadd nonev nonev)) c) = true -> is_finite c = true /\ B2R (nmul (nopp (nadd nonev nonev)) c) = -2 * B2R c).
Proof.
  intros [H1 H2]. destruct minus_two as [F V]. destruct (is_finite c) eqn:Fc.
  - rewrite phi_finite in H2 by auto. pose proof (mul_rounds _ c F Fc) as Q. rewrite V in Q. pose proof (double_format c) as D. split.
    + destruct Q as [Q1 Q2]. destruct (is_finite (nmul (nopp (nadd nonev nonev)) c)) eqn:Fm.
      * rewrite Bleb_correct; auto. apply Rle_bool_true. cbn [B2R]. rewrite <- phi_finite by auto. rewrite Q2, <- fr_0. apply fr_le. lra.
      * destruct (nmul (nopp (nadd nonev nonev)) c) as [s|s| |s m e b]; try discriminate. destruct s; [reflexivity|]. exfalso. cbn [phi] in Q2.
        pose proof (fr_le (-2 * B2R c) 0 ltac:(lra)) as K. rewrite fr_0 in K. generalize top64_pos. lra.
    + intros Fm. split; auto. rewrite (finite_rnd _ _ Q Fm). exact D.
  - destruct c as [s|s| |s m e b]; try discriminate. cbn [phi] in H2. destruct s; [generalize top64_pos; lra|]. split; [vm_compute; reflexivity|].
    intros Fm. exfalso. revert Fm. vm_compute. discriminate.
Qed.
Lemma nmse_b64 (o t : matrix B64) : mwf o -> mwf t -> same_shape o t = true -> finite_mat o -> finite_mat t -> (0 < nrows o)%nat -> exact_count (2 * nrows o) ->
  exists v, neg_mean_squared_error o t = Ok v /\ Bleb v (B754_zero false) = true /\
    (is_finite v = true -> Rabs (- B2R v - mean_squared_error (real_mat o) (real_mat t)) <=
      ((1 + u64) ^ (4 + mcols o + nrows o) - 1) * mean_squared_error (real_mat o) (real_mat t) + (INR (mcols o) * (1 + u64) ^ (1 + mcols o + nrows o) + 2) * h64) /\
    (o = t -> B2R v = 0).
Proof.
  intros Wo Wt S Fo Ft Hn Hx. unfold neg_mean_squared_error, mse_cost. rewrite S. cbn [rassert rbind]. eexists. split; [reflexivity|].
  apply same_shape_true in S as S'. destruct S' as [Sr Sc].
  assert (NR : nrows (mzip nsub o t) = nrows o). { unfold nrows, mzip in *. cbn [mrows]. rewrite map2_length; auto. }
  rewrite NR. unfold msum. rewrite mse_rows. set (s := vsum (map vsum (map2 sqs (mrows o) (mrows t)))).
  assert (Ns : nneg s) by (now apply nneg_msum).
  assert (Q2n : is_real (nmul (nadd nonev nonev) (nofnat (nrows o))) (INR (2 * nrows o))).
  { apply mul_count; auto using two_b64. apply nofnat_real. apply exact_le with (2 := Hx). lia. }
  set (q := nmul (nadd nonev nonev) (nofnat (nrows o))) in *. destruct Q2n as [Fq Vq].
  assert (Pn : 0 < INR (nrows o)) by (apply lt_0_INR; lia).
  assert (Vq' : B2R q = 2 * INR (nrows o)) by (rewrite Vq, mult_INR; reflexivity). assert (Pq : 0 < B2R q) by lra.
  assert (Nc : nneg (ndiv s q)) by (now apply nneg_div).
  destruct (neg_double _ Nc) as [D1 D2]. split; auto. split.
  - intros Fv. destruct (D2 Fv) as [Fc Vc]. rewrite Vc. assert (Fs : is_finite s = true) by (now apply (Bdiv_zero_inv s q)).
    rewrite (finite_rnd _ _ (div_rounds s q Fs Fq Pq) Fc). rewrite <- (rrows_mse o t) by auto.
    set (k := mcols o) in *. set (n := nrows o) in *.
    assert (E1 : errs (3 + k) (INR k * h64 * (1 + u64) ^ k) (map vsum (map2 sqs (mrows o) (mrows t))) (rrows o t) (rrows o t)).
    { destruct (fold_finite _ _ Fs) as [_ FF]. unfold rrows. clear - Wo Wt Sc FF. unfold mwf in Wo, Wt. rewrite <- Sc in Wt. fold k in Wo, Wt. revert Wo Wt FF.
      generalize (mrows t). clearbody k. generalize (mrows o). clear. intros lo. induction lo as [|r lo IH]; intros [|s l] Wo Wt FF; cbn [map2 map] in *; try constructor;
        inversion Wo; inversion Wt; inversion FF; subst; [|now apply IH]. apply sumsq_err; auto. }
    assert (P0 : 0 <= INR k * h64 * (1 + u64) ^ k).
    { apply Rmult_le_pos; [apply Rmult_le_pos; [apply pos_INR|apply Rlt_le, h64_pos]|]. apply Rle_trans with 1; [lra|apply pow_u_ge]. }
    pose proof (vsum_err _ _ _ _ _ P0 E1 Fs) as E2. fold s in E2. rewrite map_length, map2_length in E2 by auto. change (length (mrows o)) with n in E2.
    apply (err_scale _ _ _ _ _ (/ B2R q)) in E2. rewrite Rabs_right in E2 by (apply Rle_ge; left; now apply Rinv_0_lt_compat).
    apply err_round in E2.
    2:{ apply Rmult_le_pos; [left; now apply Rinv_0_lt_compat|]. apply Rmult_le_pos; [apply Rmult_le_pos; [apply pos_INR|auto]|]. apply Rle_trans with 1; [lra|apply pow_u_ge]. }
    destruct E2 as [_ E2]. rewrite (Rmult_comm (/ B2R q) (B2R s)) in E2. change (B2R s * / B2R q) with (B2R s / B2R q) in E2.
    replace (- (-2 * rnd64 (B2R s / B2R q)) - rsum (rrows o t) / INR n) with (2 * (rnd64 (B2R s / B2R q) - / B2R q * rsum (rrows o t))) by (rewrite Vq'; field; lra).
    rewrite Rabs_mult, (Rabs_right 2) by lra. eapply Rle_trans; [apply Rmult_le_compat_l; [lra|exact E2]|]. rewrite Vq'. right.
    replace (Datatypes.S (3 + k + n)) with (4 + k + n)%nat by lia. replace ((1 + u64) ^ (1 + k + n)) with ((1 + u64) * (1 + u64) ^ k * (1 + u64) ^ n) by (rewrite !pow_add; ring).
    field. lra.
  - intros ->. assert (Z : s = nzero).
    { unfold s. clear - Ft. unfold finite_mat in Ft. induction Ft as [|r l Hr _ IH]; [reflexivity|]. cbn [map2 map].
      assert (Q : vsum (sqs r r) = nzero). { rewrite <- sqdist_sqs. unfold Model_KMeans.sqdist, velemul. now apply sqdist_self. }
      rewrite Q. unfold vsum in *. cbn [fold_left]. exact IH. }
    assert (Zc : ndiv s q = nzero \/ ndiv s q = B754_zero true).
    { rewrite Z. destruct q as [z|z| |z m e b]; try discriminate; [cbn in Pq; lra|]. destruct z; [right|left]; reflexivity. }
    destruct Zc as [-> | ->]; vm_compute; reflexivity.
Qed.
