From Coq Require Import List Arith Bool Reals ZArith Lia Lra.
From Flocq Require Import Core BinarySingleNaN.
From Verif Require Import Base BaseLemmas Num NumX NumF B64Lemmas Linalg LinalgR Euclid Spec_Calc CalcR Spec_KNN Model_KNN Spec_B64 B64Err Proof_ScoreB64 Proof_KernelB64 Proof_DistB64 Proof_CellB64 Model_Transforms Spec_Transforms Spec_TransformsB64 Proof_TransformsB64.
Import ListNotations.
Local Open Scope R_scope.

(** ** Lengths of real vectors *)
Lemma row_len_dot r : Spec_Transforms.row_len r = sqrt (dot r r).
Proof.
  unfold Spec_Transforms.row_len. f_equal. rewrite dot_rsum, rsum_nth, LinalgR.map2_length, Nat.min_id. apply sumR_ext. intros i Hi.
  rewrite (map2_nth _ _ _ i 0 0) by lia. ring.
Qed.
Lemma dot_mono (u v : list R) : Forall2 (fun x y => Rabs x <= y) u v -> dot u u <= dot v v.
Proof.
  induction 1 as [|x y u v H _ IH]; [lra|]. rewrite !dot_cons. apply Rplus_le_compat; auto.
  pose proof (Rabs_pos x). rewrite <- (Rabs_right (x * x)) by (apply Rle_ge, Rle_0_sqr). rewrite Rabs_mult. apply Rmult_le_compat; lra.
Qed.
Lemma dot_abs_scale c (u : list R) : dot (map (fun x => c * Rabs x) u) (map (fun x => c * Rabs x) u) = c * c * dot u u.
Proof.
  induction u as [|x u IH]; [rewrite !dot_nil_l; ring|]. cbn [map]. rewrite !dot_cons, IH.
  replace (c * Rabs x * (c * Rabs x)) with (c * c * (Rabs x * Rabs x)) by ring. rewrite <- Rabs_mult, (Rabs_right (x * x)) by (apply Rle_ge, Rle_0_sqr). ring.
Qed.
Lemma dot_const h n : dot (repeat h n) (repeat h n) = INR n * (h * h).
Proof. induction n as [|n IH]; [rewrite dot_nil_l; cbn; ring|]. cbn [repeat]. rewrite dot_cons, IH, S_INR. ring. Qed.
Lemma entry_le_len r x : In x r -> Rabs x <= sqrt (dot r r).
Proof.
  intros H. rewrite <- (sqrt_Rsqr_abs x). apply sqrt_le_1_alt. unfold Rsqr. induction r as [|y r IH]; [contradiction|]. rewrite dot_cons.
  destruct H as [->|H]; [pose proof (dot_ge0 r); lra|]. specialize (IH H). pose proof (Rle_0_sqr y) as Q. unfold Rsqr in Q. lra.
Qed.
(** Two vectors close in every component have close lengths. *)
Lemma len_close (u v : list R) c h : 0 <= c -> 0 <= h -> Forall2 (fun x y => Rabs (x - y) <= c * Rabs y + h) u v ->
  Rabs (sqrt (dot u u) - sqrt (dot v v)) <= c * sqrt (dot v v) + INR (length v) * h.
Proof.
  intros Hc Hh F.
  assert (L : length u = length v) by (clear - F; induction F; cbn; auto).
  set (w := vsub u v).
  assert (Lw : length w = length v) by (unfold w; rewrite Euclid.vsub_length; auto).
  assert (B : sqrt (dot w w) <= c * sqrt (dot v v) + INR (length v) * h).
  { set (a := map (fun x => c * Rabs x) v). set (b := repeat h (length v)).
    assert (M : dot w w <= dot (vadd a b) (vadd a b)).
    { apply dot_mono. unfold w, a, b. clear - F. induction F as [|x y u v H _ IH]; [constructor|].
      cbn [length repeat map vsub vadd map2]. constructor; [exact H|exact IH]. }
    apply sqrt_le_1_alt in M. apply Rle_trans with (1 := M). apply Rle_trans with (1 := minkowski a b ltac:(unfold a, b; rewrite map_length, repeat_length; auto)).
    unfold a, b. rewrite dot_abs_scale, dot_const. apply Rplus_le_compat.
    - rewrite sqrt_mult_alt by nra. rewrite sqrt_square by auto. lra.
    - rewrite sqrt_mult_alt by apply pos_INR. rewrite sqrt_square by auto. apply Rmult_le_compat_r; auto.
      destruct (length v) as [|k]; [cbn; rewrite R_sqrt.sqrt_0; lra|].
      assert (1 <= INR (S k)) by (rewrite S_INR; pose proof (pos_INR k); lra).
      pose proof (sqrt_sqrt (INR (S k)) ltac:(lra)) as Q. assert (1 <= sqrt (INR (S k))) by (rewrite <- sqrt_1; apply sqrt_le_1_alt; auto).
      assert (1 * sqrt (INR (S k)) <= sqrt (INR (S k)) * sqrt (INR (S k))) by (apply Rmult_le_compat_r; lra). lra. }
  assert (E1 : u = vadd v w).
  { unfold w. clear - L. revert v L; induction u as [|x u IH]; intros [|y v] L; try discriminate; auto. cbn. f_equal; [lra|]. apply IH. cbn in L; lia. }
  assert (E2 : v = vadd u (vscale (-1) w)).
  { unfold w. clear - L. revert v L; induction u as [|x u IH]; intros [|y v] L; try discriminate; auto. cbn. f_equal; [lra|]. apply IH. cbn in L; lia. }
  pose proof (minkowski v w ltac:(congruence)) as K1. rewrite <- E1 in K1.
  pose proof (minkowski u (vscale (-1) w) ltac:(unfold vscale; rewrite map_length; congruence)) as K2. rewrite <- E2 in K2.
  rewrite dot_vscale_l, (dot_comm w), dot_vscale_l in K2. replace (-1 * (-1 * dot w w)) with (dot w w) in K2 by ring.
  apply Rabs_le. lra.
Qed.

(** ** The computed length *)
Lemma sub_zero (x : B64) : is_finite x = true -> nsub x (nzero : B64) = x.
Proof. destruct x as [[|]|s| |s m e b]; try discriminate; reflexivity. Qed.
Lemma norm_sqs (r : list B64) : finite_vec r -> norm2 r = nsqrt (vsum (sqs r (repeat nzero (length r)))).
Proof.
  unfold norm2, dot. intros F. apply (f_equal nsqrt), (f_equal vsum). revert F. induction r as [|x r IH]; intros F; [reflexivity|]. inversion F as [|? ? Fx Fr]; subst.
  cbn [length repeat map2]. unfold sqs. cbn [map2]. f_equal; [now rewrite (sub_zero x Fx)|]. exact (IH Fr).
Qed.
Lemma rsqs_dot (r : list B64) : rsum (rsqs r (repeat nzero (length r))) = dot (real_vec r) (real_vec r).
Proof.
  induction r as [|x r IH]; [reflexivity|]. cbn [real_vec map length repeat]. rewrite dot_cons. fold (real_vec r).
  change (rsqs (x :: r) (nzero :: repeat nzero (length r))) with ((B2R x - B2R (nzero : B64)) ^ 2 :: rsqs r (repeat nzero (length r))).
  cbn [rsum]. rewrite IH. change (B2R (nzero : B64)) with 0. ring.
Qed.
Lemma dim_u n : moderate_dim n -> INR n * u64 <= bpow radix2 (-33).
Proof.
  intros H. replace (bpow radix2 (-33)) with (bpow radix2 20 * u64) by (unfold u64; rewrite <- bpow_plus; reflexivity).
  apply Rmult_le_compat_r; [apply Rlt_le, u64_pos|]. rewrite INR_IZR_INZ. change (bpow radix2 20) with (IZR (2 ^ 20)). apply IZR_le. exact H.
Qed.
Lemma norm_sharp (r : list B64) : measurable r -> let L := sqrt (dot (real_vec r) (real_vec r)) in
  is_finite (norm2 r) = true /\ 0 < L /\ exists e, Rabs e <= (2 * INR (length r) + 9) * u64 /\ B2R (norm2 r) = L * (1 + e).
Proof.
  intros (Mr & Md & Ml) L. rewrite row_len_dot in Ml. fold L in Ml. set (n := length r) in *. set (z := repeat (nzero : B64) n).
  assert (Fr : finite_vec r) by (apply Forall_forall; intros x Hx; apply Mr; auto).
  assert (Mz : moderate z) by (intros x Hx; apply repeat_spec in Hx; subst x; split; [reflexivity|change (B2R (nzero : B64)) with 0; rewrite Rabs_R0; apply bpow_ge_0]).
  assert (Lz : length z = n) by apply repeat_length.
  rewrite (norm_sqs r Fr). fold n z.
  assert (Fs : is_finite (vsum (sqs r z)) = true) by (apply sumsq_finite; auto).
  pose proof (sumsq_err n r z eq_refl Lz Fs) as E. set (s := vsum (sqs r z)) in *.
  assert (Ps : 0 <= B2R s).
  { rewrite <- phi_finite by auto. apply nneg_fold; [|apply nneg_zero]. apply Forall_forall. intros q Hq.
    destruct (fold_finite _ _ Fs) as [_ FF]. rewrite Forall_forall in FF. specialize (FF q Hq).
    assert (exists t, q = nmul t t) as [t ->].
    { clear - Hq. clearbody z. revert z Hq. induction r as [|x a IH]; intros [|y b] Hq; cbn in Hq; try tauto. destruct Hq as [<-|Hq]; [eexists; reflexivity|now apply (IH b)]. }
    apply nneg_sq. apply finite_nan. now apply nmul_finite_inv in FF. }
  destruct (sqrt_b64 s Fs Ps) as [F V]. split; auto.
  assert (L0 : 0 < L) by (apply Rlt_le_trans with (2 := Ml); apply bpow_gt_0). split; auto.
  pose proof (rsum_nonneg r z) as PS. assert (ES : rsum (rsqs r z) = dot (real_vec r) (real_vec r)) by apply rsqs_dot. rewrite ES in *.
  assert (E' : err (3 + n) (bpow radix2 (-1054)) (B2R s) (dot (real_vec r) (real_vec r)) (dot (real_vec r) (real_vec r))) by (eapply err_mono; [apply le_n| |exact E]; now apply tiny_bound).
  apply sqrt_err in E'; auto; [|apply bpow_ge_0]. replace (sqrt (bpow radix2 (-1054))) with (bpow radix2 (-527)) in E'.
  2:{ symmetry. apply sqrt_lem_1; try apply bpow_ge_0. now rewrite <- bpow_plus. }
  fold L in E'. apply err_round in E'; [|apply bpow_ge_0]. destruct E' as [_ E']. rewrite <- V in E'.
  set (d := B2R (nsqrt s)) in *. exists (d / L - 1). split; [|field; lra].
  pose proof u_small as U. pose proof (dim_u n Md) as Un. 
  assert (B33 : bpow radix2 (-33) <= / 1024) by (replace (/ 1024) with (bpow radix2 (-10)) by (cbn; lra); apply bpow_le; lia).
  assert (G : (1 + u64) ^ (S (3 + n)) - 1 <= 2 * INR (S (3 + n)) * u64).
  { apply gamma. rewrite S_INR, plus_INR. cbn [INR]. lra. }
  assert (T : (1 + u64) * bpow radix2 (-527) + h64 <= u64 * L).
  { apply Rle_trans with (u64 * bpow radix2 (-450)); [|apply Rmult_le_compat_l; lra]. unfold u64 at 2. rewrite <- bpow_plus.
    assert (h64 <= bpow radix2 (-527)) by (apply bpow_le; lia). pose proof (bpow_gt_0 radix2 (-527)) as P5.
    apply Rle_trans with (4 * bpow radix2 (-527)); [assert (u64 * bpow radix2 (-527) <= 1 * bpow radix2 (-527)) by (apply Rmult_le_compat_r; lra); lra|].
    change 4 with (bpow radix2 2). rewrite <- bpow_plus. apply bpow_le. lia. }
  replace (d / L - 1) with ((d - L) * / L) by (field; lra). rewrite Rabs_mult, (Rabs_right (/ L)) by (left; apply Rinv_0_lt_compat; auto).
  apply Rmult_le_reg_r with L; auto. rewrite Rmult_assoc, Rinv_l, Rmult_1_r by lra.
  apply Rle_trans with (1 := E'). rewrite S_INR, plus_INR in G. cbn [INR] in G.
  set (gm := (1 + u64) ^ S (3 + n) - 1) in *.
  assert (gm * L <= 2 * (1 + 1 + 1 + INR n + 1) * u64 * L) by (apply Rmult_le_compat_r; lra). lra.
Qed.

(** ** The normalised row *)
Lemma normalize_row_b64 (r : list B64) : measurable r -> let L := sqrt (dot (real_vec r) (real_vec r)) in
  exists o, normalize_row norm2 r = Ok o /\ Forall2 (fun y x => is_finite y = true /\
      Rabs (B2R y - B2R x / L) <= (2 * INR (length r) + 11) * u64 * Rabs (B2R x / L) + h64) o r.
Proof.
  intros Mr L. destruct (norm_sharp r Mr) as (Fd & L0 & e & He & Ed). fold L in L0, Ed.
  destruct Mr as (Mr & Md & _). set (n := length r) in *. pose proof u_small as U. pose proof (dim_u n Md) as Un.
  assert (B33 : bpow radix2 (-33) <= / 100000) by (replace (bpow radix2 (-33)) with (/ 8589934592) by (cbn; lra); apply Rinv_le_contravar; lra).
  assert (U6 : u64 <= / 100000000).
  { apply Rle_trans with (bpow radix2 (-30)); [apply bpow_le; lia|]. replace (bpow radix2 (-30)) with (/ 1073741824) by (cbn; lra). apply Rinv_le_contravar; lra. }
  pose proof (pos_INR n) as n0. assert (n0u : 0 <= INR n * u64) by (apply Rmult_le_pos; lra).
  assert (eb : Rabs e <= / 1000) by lra. apply Rabs_le_inv in eb as eb'.
  set (d := norm2 r) in *. assert (Dn : B2R d <> 0) by (rewrite Ed; assert (0 < L * (1 + e)) by (apply Rmult_lt_0_compat; lra); lra).
  unfold normalize_row. fold d. change (nfinite d) with (is_finite d). rewrite Fd. cbn [negb].
  assert (Z : neqb d (nzero : B64) = false).
  { destruct (neqb d (nzero : B64)) eqn:Q; auto. exfalso. apply Dn. change (neqb d nzero) with (Beqb d (nzero : B64)) in Q.
    rewrite Beqb_correct in Q by auto. revert Q. change (B2R (nzero : B64)) with 0. destruct (Req_bool_spec (B2R d) 0); [auto|discriminate]. }
  rewrite Z. cbn [negb]. eexists. split; [reflexivity|].
  assert (A : forall x, In x r -> is_finite (ndiv x d) = true /\ Rabs (B2R (ndiv x d) - B2R x / L) <= (2 * INR n + 11) * u64 * Rabs (B2R x / L) + h64).
  { intros x Hx. destruct (Mr x Hx) as [Fx _].
    assert (XL : Rabs (B2R x / L) <= 1).
    { unfold Rdiv. rewrite Rabs_mult, (Rabs_right (/ L)) by (left; apply Rinv_0_lt_compat; auto).
      apply Rmult_le_reg_r with L; auto. rewrite Rmult_assoc, Rinv_l by lra. rewrite Rmult_1_r, Rmult_1_l. apply entry_le_len. unfold real_vec. apply in_map. auto. }
    assert (Eq : B2R x / B2R d = B2R x / L * / (1 + e)) by (rewrite Ed; field; lra).
    assert (I1 : Rabs (/ (1 + e)) <= 2).
    { rewrite Rabs_right by (left; apply Rinv_0_lt_compat; lra). replace 2 with (/ / 2) by field. apply Rinv_le_contravar; lra. }
    assert (Fq : is_finite (ndiv x d) = true).
    { apply (fin_small _ _ (div_rounds _ _ Fx Fd Dn)). rewrite Eq. apply Rle_trans with (1 := amul _ _ _ _ XL I1).
      change (1 * 2) with (1 * bpow radix2 1). rewrite Rmult_1_l. apply bpow_le. lia. }
    split; auto. destruct (div_err _ _ Fq Fd) as (_ & f & h & Hf & Hh & ->). rewrite Eq.
    replace (B2R x / L * / (1 + e) * (1 + f) + h - B2R x / L) with (B2R x / L * ((f - e) * / (1 + e)) + h) by (field; lra).
    apply aadd; auto. rewrite Rabs_mult, Rmult_comm. apply Rmult_le_compat_r; [apply Rabs_pos|].
    assert (I2 : Rabs (/ (1 + e)) <= 1 + 2 * Rabs e).
    { rewrite (Rabs_right (/ (1 + e))) by (left; apply Rinv_0_lt_compat; lra). apply Rmult_le_reg_r with (1 + e); [lra|]. rewrite Rinv_l by lra.
      clear - eb'. unfold Rabs. destruct (Rcase_abs e) as [Q|Q].
      - assert (0 <= (- e) * (1 + 2 * e)) by (apply Rmult_le_pos; lra). lra.
      - assert (0 <= e * e) by (apply Rmult_le_pos; lra). lra. }
    apply Rle_trans with (1 := amul _ _ _ _ (asub _ _ _ _ Hf He) I2).
    assert (K : (2 * INR n + 10) * (2 * Rabs e) <= 1).
    { apply Rle_trans with ((2 * INR n + 10) * (2 * ((2 * INR n + 9) * u64))); [apply Rmult_le_compat_l; lra|].
      assert (N1 : INR n <= 1048576). { rewrite INR_IZR_INZ. apply (IZR_le _ (2 ^ 20)). exact Md. }
      assert (V53 : u64 <= / 9007199254740992) by (right; unfold u64; cbn; lra).
      assert ((2 * INR n + 10) * (2 * ((2 * INR n + 9) * u64)) <= (2 * 1048576 + 10) * (2 * ((2 * 1048576 + 9) * / 9007199254740992))); [|lra].
      apply Rmult_le_compat; [lra| |lra|]; [apply Rmult_le_pos; [lra|]; apply Rmult_le_pos; lra|].
      apply Rmult_le_compat_l; [lra|]. apply Rmult_le_compat; lra. }
    assert ((2 * INR n + 10) * (2 * Rabs e) * u64 <= 1 * u64) by (apply Rmult_le_compat_r; lra). lra. }
  clear - A. clearbody n d L. induction r as [|x r IH]; [constructor|]. cbn [map]. constructor; [apply A; left; auto|]. apply IH. intros y Hy. apply A. right; auto.
Qed.
Lemma normalized_len (o r : list B64) : measurable r -> let L := sqrt (dot (real_vec r) (real_vec r)) in
  Forall2 (fun y x => is_finite y = true /\ Rabs (B2R y - B2R x / L) <= (2 * INR (length r) + 11) * u64 * Rabs (B2R x / L) + h64) o r ->
  Rabs (sqrt (dot (real_vec o) (real_vec o)) - 1) <= (2 * INR (length r) + 12) * u64.
Proof.
  intros Mr L F. destruct (norm_sharp r Mr) as (_ & L0 & _). fold L in L0. destruct Mr as (_ & Md & _).
  set (n := length r) in *. pose proof (pos_INR n) as n0. pose proof u_small as U. pose proof h64_pos as HP.
  set (v := map (fun x => B2R x / L) r).
  assert (Lv : length v = n) by apply map_length.
  assert (N1 : sqrt (dot v v) = 1).
  { replace v with (vscale (/ L) (real_vec r)) by (unfold v, vscale, real_vec; rewrite map_map; reflexivity).
    rewrite dot_vscale_l, dot_comm, dot_vscale_l. assert (Q : dot (real_vec r) (real_vec r) = L * L) by (symmetry; apply sqrt_sqrt, dot_ge0).
    rewrite Q. replace (/ L * (/ L * (L * L))) with 1 by (field; lra). apply sqrt_1. }
  assert (Q : Rabs (sqrt (dot (real_vec o) (real_vec o)) - sqrt (dot v v)) <= (2 * INR n + 11) * u64 * sqrt (dot v v) + INR (length v) * h64).
  { apply len_close; [apply Rmult_le_pos; lra|lra|]. unfold v, real_vec. clear - F. clearbody n L. induction F as [|y x o r [_ H] _ IH]; cbn [map]; constructor; auto. }
  rewrite N1, Lv in Q. apply Rle_trans with (1 := Q).
  assert (INR n * h64 <= u64).
  { apply Rle_trans with (bpow radix2 20 * h64); [apply Rmult_le_compat_r; [lra|]; rewrite INR_IZR_INZ; change (bpow radix2 20) with (IZR (2 ^ 20)); apply IZR_le; exact Md|].
    unfold h64, u64. rewrite <- bpow_plus. apply bpow_le. lia. }
  lra.
Qed.

Lemma normalize_b64 (m : matrix B64) : mwf m -> (forall r, In r (mrows m) -> measurable r) ->
  exists out, normalize norm2 m = Ok out /\ mwf out /\ nrows out = nrows m /\ mcols out = mcols m /\
    forall i, (i < nrows m)%nat -> let L := Spec_Transforms.row_len (real_vec (nth i (mrows m) [])) in
      Rabs (Spec_Transforms.row_len (real_vec (nth i (mrows out) [])) - 1) <= (2 * INR (mcols m) + 12) * u64 /\
      forall j, (j < mcols m)%nat -> is_finite (cell out i j) = true /\
        Rabs (B2R (cell out i j) - B2R (cell m i j) / L) <= (2 * INR (mcols m) + 11) * u64 * Rabs (B2R (cell m i j) / L) + h64.
Proof.
  intros W Mr.
  assert (E : exists rows, rmap (normalize_row norm2) (mrows m) = Ok rows /\ Forall2 (fun o r => length r = mcols m /\ normalize_row norm2 r = Ok o) rows (mrows m)).
  { unfold mwf in W. revert W Mr. induction (mrows m) as [|r rs IH]; intros W Mr; [exists []; split; [reflexivity|constructor]|].
    inversion W; subst. destruct IH as (rows & E & Q); auto; [intros q Hq; apply Mr; right; auto|].
    destruct (normalize_row_b64 r (Mr r (or_introl eq_refl))) as (o & Eo & _). exists (o :: rows). cbn [rmap]. rewrite Eo. cbn [rbind]. rewrite E. cbn [rbind]. split; auto. }
  destruct E as (rows & E & Q). unfold normalize. rewrite E. cbn [rbind]. eexists. split; [reflexivity|].
  assert (Lr : length rows = length (mrows m)) by (clear - Q; induction Q; cbn; auto).
  assert (LF : forall o r, normalize_row norm2 r = Ok o -> length o = length r).
  { intros o r. unfold normalize_row. destruct (nfinite _); cbn [negb]; [|discriminate]. destruct (neqb _ _); cbn [negb]; intros H; inversion H; auto. apply map_length. }
  split; [|split; [exact Lr|split; [reflexivity|]]].
  { unfold mwf; cbn [mrows mcols]. clear - Q LF. induction Q as [|o r os rs [H1 H2] _ IH]; constructor; auto. apply LF in H2. congruence. }
  intros i Hi; cbv zeta. unfold cell; cbn [mrows].
  assert (T : length (nth i (mrows m) []) = mcols m /\ normalize_row norm2 (nth i (mrows m) []) = Ok (nth i rows [])).
  { unfold nrows in Hi. clear - Q Hi. revert i Hi. induction Q as [|o r os rs H _ IH]; intros i Hi; [cbn in Hi; lia|]. destruct i; cbn; auto. apply IH. cbn in Hi; lia. }
  destruct T as [T1 T2]. assert (MR : measurable (nth i (mrows m) [])) by (apply Mr; apply nth_In; auto).
  destruct (normalize_row_b64 _ MR) as (o & Eo & Fo). rewrite Eo in T2. inversion T2 as [T3]. rewrite <- T3.
  pose proof (normalized_len _ _ MR Fo) as NL. rewrite T1 in NL, Fo. rewrite !row_len_dot in *. split; auto.
  intros j Hj. set (l := sqrt _) in *. clearbody l. rewrite <- T1 in Hj. clear - Fo Hj. revert j Hj.
  induction Fo as [|y x o r H _ IH]; intros j Hj; [cbn in Hj; lia|]. destruct j; cbn; auto. apply IH. cbn in Hj; lia.
Qed.
