From Coq Require Import List Arith Bool Reals ZArith Lia Lra.
From Flocq Require Import Core BinarySingleNaN.
From Verif Require Import Base BaseLemmas Num NumF NumFn B64Lemmas Linalg LinalgR Model_Optim Model_Cost Model_Toolkit Model_Regression Spec_B64 B64Err Proof_ScoreB64 Proof_KernelB64 Proof_CellB64 Proof_ErrB64 Proof_B64Ex Spec_SigB64.
Import ListNotations.
Local Open Scope R_scope.

Lemma phi_leb (x y : B64) : is_nan x = false -> is_nan y = false -> (Bleb x y = true <-> phi x <= phi y).
Proof.
  intros Nx Ny. assert (H : Bleb x y = negb (Bltb y x)).
  { unfold Bleb, Bltb, SpecFloat.SFleb, SpecFloat.SFltb. change (SpecFloat.SFcompare (B2SF x) (B2SF y)) with (Bcompare x y). change (SpecFloat.SFcompare (B2SF y) (B2SF x)) with (Bcompare y x).
    rewrite (Bcompare_swap _ _ x y). destruct (Bcompare x y) as [[| |]|] eqn:E; auto.
    exfalso. destruct x as [[|]|[|]| |[|] ? ? ?], y as [[|]|[|]| |[|] ? ? ?]; cbn in *; discriminate. }
  rewrite H. change (Bltb y x) with (b64_ltb y x). destruct (b64_ltb y x) eqn:E; cbn [negb].
  - apply phi_ltb in E; auto. split; [discriminate|lra].
  - apply phi_ltb_false in E; auto. split; auto.
Qed.
Lemma leb_nan (x y : B64) : Bleb x y = true -> is_nan x = false /\ is_nan y = false.
Proof. destruct x, y; cbn; auto; discriminate. Qed.
Lemma top_gt_1 : 1 < top64.
Proof. change 1 with (bpow radix2 0). apply bpow_lt. lia. Qed.
Lemma rnd64_1' : rnd64 1 = 1. Proof. exact rnd64_1. Qed.
Lemma fr_1 : fr 1 = 1.
Proof. rewrite fr_in; rewrite rnd64_1; auto. rewrite Rabs_R1. apply top_gt_1. Qed.
Lemma one_fin : is_finite (nonev : B64) = true. Proof. exact (proj1 one_real). Qed.
Lemma phi_opp (x : B64) : phi (nopp x) = - phi x.
Proof.
  destruct (is_finite x) eqn:F.
  { assert (F' : is_finite (nopp x) = true) by (change (nopp x) with (Bopp x); now rewrite is_finite_Bopp). rewrite (phi_finite _ F), (phi_finite _ F'). apply B2R_Bopp. }
  destruct x as [[|]|[|]| |[|] m e b]; try discriminate; cbn; lra.
Qed.
Lemma nan_opp (x : B64) : is_nan (nopp x) = is_nan x. Proof. now destruct x. Qed.
Lemma opp_leb (x y : B64) : Bleb x y = true -> Bleb (nopp y) (nopp x) = true.
Proof. intros H. destruct (leb_nan _ _ H). apply phi_leb in H; auto. apply phi_leb; rewrite ?nan_opp, ?phi_opp; auto. lra. Qed.

(** 1 / s for s >= 1 (infinity included). *)
Lemma inv_val (s : B64) : is_nan s = false -> 1 <= phi s ->
  is_finite (ndiv nonev s) = true /\ (is_finite s = true -> B2R (ndiv nonev s) = rnd64 (1 / B2R s)) /\ (is_finite s = false -> B2R (ndiv nonev s) = 0) /\ 0 <= B2R (ndiv nonev s) <= 1.
Proof.
  intros N H. destruct (is_finite s) eqn:F.
  - rewrite phi_finite in H by auto. destruct (div_rounds nonev s one_fin F ltac:(lra)) as [D1 D2]. rewrite one_b64 in D2.
    assert (I : 0 <= 1 / B2R s <= 1). { split; [apply Rlt_le, Rdiv_lt_0_compat; lra|]. apply Rmult_le_reg_r with (B2R s); [lra|]. unfold Rdiv. rewrite Rmult_assoc, Rinv_l by lra. lra. }
    assert (B : 0 <= rnd64 (1 / B2R s) <= 1). { pose proof (rnd64_le 0 _ (proj1 I)) as P0. pose proof (rnd64_le _ 1 (proj2 I)) as P1. rewrite rnd64_0 in P0. rewrite rnd64_1 in P1. auto. }
    pose proof top_gt_1. rewrite fr_in in D2 by (rewrite Rabs_right; lra).
    destruct (ndiv nonev s) as [z|[|]| |z m e b] eqn:E; try discriminate D1; cbn [phi] in D2; try (exfalso; lra); split; auto; split; auto; split; try discriminate; rewrite D2; auto.
  - destruct s as [z|[|]| |z m e b]; try discriminate; cbn [phi] in H; [pose proof top_gt_1; lra|].
    split; [reflexivity|]. split; [discriminate|]. split; [reflexivity|]. cbn. lra.
Qed.
Lemma inv_antitone (s t : B64) : is_nan s = false -> is_nan t = false -> 1 <= phi s -> phi s <= phi t -> B2R (ndiv nonev t) <= B2R (ndiv nonev s).
Proof.
  intros Ns Nt Hs Hst. destruct (inv_val s Ns Hs) as (_ & Fs & Is & Bs). destruct (inv_val t Nt ltac:(lra)) as (_ & Ft & It & Bt).
  destruct (is_finite t) eqn:Et; [|rewrite It by auto; lra]. rewrite Ft by auto. destruct (is_finite s) eqn:Es.
  - rewrite Fs by auto. apply rnd64_le. rewrite !phi_finite in * by auto. unfold Rdiv. rewrite !Rmult_1_l. apply Rinv_le_contravar; lra.
  - exfalso. destruct s as [z|[|]| |z m e b]; try discriminate; cbn [phi] in *; pose proof top_gt_1; [lra|]. rewrite phi_finite in Hst by auto.
    pose proof (abs_B2R_lt_emax 53 1024 t) as Q. fold top64 in Q. apply Rabs_def2 in Q. lra.
Qed.

Section Sigmoid.
  Context {NF : NumFn B64}.
  Hypothesis G : sound_exp nexp.
  Lemma exp_nneg (x : B64) : is_nan x = false -> is_nan (nexp x) = false /\ 0 <= phi (nexp x).
  Proof. intros N. pose proof (proj1 G x N) as H. destruct (leb_nan _ _ H) as [_ N']. split; auto. apply phi_leb in H; auto. Qed.
  Lemma den_val (x : B64) : is_nan x = false -> is_nan (nadd nonev (nexp (nopp x))) = false /\ phi (nadd nonev (nexp (nopp x))) = fr (1 + phi (nexp (nopp x))) /\ 1 <= phi (nadd nonev (nexp (nopp x))).
  Proof.
    intros N. rewrite <- nan_opp in N. destruct (exp_nneg _ N) as [E1 E2].
    assert (P1 : phi (nonev : B64) = 1) by (rewrite phi_finite by exact one_fin; apply one_b64).
    destruct (add_pos_rounds nonev (nexp (nopp x)) (finite_nan _ one_fin) E1 ltac:(lra) E2) as [A B]. rewrite P1 in B. split; auto. split; auto. rewrite B. rewrite <- fr_1 at 1. apply fr_le. lra.
  Qed.
  Lemma sigmoid_range (x : B64) : is_nan x = false -> within 0 1 (sigmoid x).
  Proof. intros N. destruct (den_val x N) as (A & _ & B). destruct (inv_val _ A B) as (F & _ & _ & R). split; auto. Qed.
  Lemma sigmoid_nan : is_nan (nexp (B754_nan : B64)) = true -> is_nan (sigmoid (B754_nan : B64)) = true.
  Proof. intros H. unfold sigmoid. change (nopp (B754_nan : B64)) with (B754_nan : B64). destruct (nexp (B754_nan : B64)); try discriminate. reflexivity. Qed.
  Lemma sigmoid_mono (x y : B64) : Bleb x y = true -> B2R (sigmoid x) <= B2R (sigmoid y).
  Proof.
    intros H. destruct (leb_nan _ _ H) as [Nx Ny]. destruct (den_val x Nx) as (Ax & Vx & Bx). destruct (den_val y Ny) as (Ay & Vy & By).
    apply inv_antitone; auto. rewrite Vx, Vy. apply fr_le. apply opp_leb in H. pose proof (proj1 (proj2 G) _ _ H) as M.
    destruct (leb_nan _ _ M) as [M1 M2]. apply phi_leb in M; auto. lra.
  Qed.
  Lemma sigmoid_zero (x : B64) : is_real x 0 -> is_real (sigmoid x) (1 / 2).
  Proof.
    intros [F V]. unfold sigmoid. rewrite (proj2 (proj2 G) (nopp x)).
    2:{ split; [change (nopp x) with (Bopp x); now rewrite is_finite_Bopp|]. change (nopp x) with (Bopp x). rewrite B2R_Bopp, V. lra. }
    change (nadd nonev (b64_of_Z 1) : B64) with (nadd (nonev : B64) (nonev : B64)).
    assert (E2 : is_real (nadd (nonev : B64) nonev) (INR 2)) by (apply (add_count _ _ 1 1); auto using one_real; unfold exact_count; lia).
    destruct E2 as [E2 E3]. change (INR 2) with (1 + 1) in E3. destruct (inv_val (nadd (nonev : B64) nonev) (finite_nan _ E2)) as (A & B & _); [rewrite phi_finite by auto; rewrite E3; lra|].
    split; auto. rewrite B by auto. rewrite E3. replace (1 / (1 + 1)) with (1 / 2) by lra.
    replace (1 / 2) with (bpow radix2 (-1)) by (cbn; lra). unfold rnd64. apply round_generic; [apply valid_rnd_N|]. apply generic_format_bpow. cbn. lia.
  Qed.
  Lemma zero_real : is_real (B754_zero false : B64) 0. Proof. split; reflexivity. Qed.
  Lemma sigmoid_sides (x : B64) : (Bleb (B754_zero false) x = true -> 1 / 2 <= B2R (sigmoid x)) /\ (Bleb x (B754_zero false) = true -> B2R (sigmoid x) <= 1 / 2).
  Proof. destruct (sigmoid_zero _ zero_real) as [_ Z]. split; intros H; apply sigmoid_mono in H; lra. Qed.
  Lemma sigmoid_decides (x : B64) : is_nan x = false -> (1 / 2 < B2R (sigmoid x) -> Bltb (B754_zero false) x = true) /\ (B2R (sigmoid x) < 1 / 2 -> Bltb x (B754_zero false) = true).
  Proof.
    intros N. destruct (sigmoid_sides x) as [S1 S2]. split; intros H.
    - change (Bltb (B754_zero false) x) with (b64_ltb (B754_zero false) x). apply phi_ltb; auto. cbn [phi]. cbn. apply Rnot_le_lt. intros L. assert (B2R (sigmoid x) <= 1 / 2); [|lra]. apply S2. apply phi_leb; auto.
    - change (Bltb x (B754_zero false)) with (b64_ltb x (B754_zero false)). apply phi_ltb; auto. apply Rnot_le_lt. intros L. assert (1 / 2 <= B2R (sigmoid x)); [|lra]. apply S1. apply phi_leb; auto.
  Qed.

  (** Accuracy. *)
  Variable u : R.
  Hypothesis U : 0 <= u <= / 1024.
  Hypothesis A : accurate_exp u nexp.
  Lemma tiny_pos : 0 < bpow radix2 (-1074) <= u64 / 8.
  Proof. split; [apply bpow_gt_0|]. unfold u64. replace (bpow radix2 (-53) / 8) with (bpow radix2 (-56)) by (change (-56)%Z with (-53 + -3)%Z; rewrite bpow_plus; cbn; lra). apply bpow_le. lia. Qed.
  Lemma sigmoid_accuracy (x : B64) : is_finite x = true -> Rabs (B2R (sigmoid x) - logistic (B2R x)) <= u + 4 * u64.
  Proof.
    intros Fx. pose proof u_small as Us. pose proof tiny_pos as Tp. assert (N : is_nan x = false) by (now apply finite_nan). destruct (den_val x N) as (D1 & D2 & D3).
    destruct (inv_val _ D1 D3) as (I1 & I2 & I3 & I4). change (ndiv nonev (nadd nonev (nexp (nopp x)))) with (sigmoid x) in *.
    assert (Fo : is_finite (nopp x) = true) by (change (nopp x) with (Bopp x); now rewrite is_finite_Bopp). assert (Vo : B2R (nopp x) = - B2R x) by (change (nopp x) with (Bopp x); now rewrite B2R_Bopp).
    destruct (A _ Fo) as [A1 A2]. rewrite Vo in A1, A2. unfold logistic. set (E := exp (- B2R x)) in *. assert (PE : 0 < E) by apply exp_pos. clearbody E.
    assert (Big : bpow radix2 998 <= E -> 0 <= 1 / (1 + E) <= u64).
    { intros H. assert (0 < bpow radix2 998) by apply bpow_gt_0. split; [apply Rlt_le, Rdiv_lt_0_compat; lra|]. unfold Rdiv. rewrite Rmult_1_l. apply Rle_trans with (/ bpow radix2 998); [apply Rinv_le_contravar; lra|].
      unfold u64. rewrite <- bpow_opp. apply bpow_le. lia. }
    destruct (exp_nneg (nopp x)) as [E1 E2]; [now rewrite nan_opp|].
    destruct (is_finite (nadd nonev (nexp (nopp x)))) eqn:Fs.
    - destruct (nadd_finite_inv _ _ Fs) as [_ Fe]. specialize (A1 Fe). rewrite phi_finite in E2 by auto. destruct (add_err _ _ Fs) as (d1 & Hd1 & Vs). rewrite one_b64 in Vs.
      set (e := B2R (nexp (nopp x))) in *. clearbody e. rewrite (I2 eq_refl), Vs. destruct (rnd_split (1 / ((1 + e) * (1 + d1)))) as (d2 & h & Hd2 & Hh & ->).
      assert (Hu : h64 <= u64 / 8) by (apply Rle_trans with (bpow radix2 (-1074)); [|apply Tp]; unfold h64; apply bpow_le; lia).
      apply Rabs_le_inv in Hd1, Hd2, Hh, A1. pose proof u64_pos.
      assert (Q1 : Rabs (1 / (1 + e) - 1 / (1 + E)) <= u + u64 / 8).
      { replace (1 / (1 + e) - 1 / (1 + E)) with ((E - e) * (/ (1 + e) * / (1 + E))) by (field; lra).
        assert (V1 : 0 < / (1 + e) <= 1) by (split; [apply Rinv_0_lt_compat; lra|rewrite <- Rinv_1; apply Rinv_le_contravar; lra]).
        assert (V2 : 0 < / (1 + E)) by (apply Rinv_0_lt_compat; lra). assert (V3 : E * / (1 + E) <= 1) by (apply Rmult_le_reg_r with (1 + E); [lra|]; rewrite Rmult_assoc, Rinv_l by lra; lra).
        assert (V4 : / (1 + E) <= 1) by (rewrite <- Rinv_1; apply Rinv_le_contravar; lra).
        rewrite Rabs_mult. rewrite (Rabs_right (_ * _)) by (apply Rle_ge, Rmult_le_pos; lra).
        apply Rle_trans with ((u * E + bpow radix2 (-1074)) * (1 * / (1 + E))).
        - apply Rmult_le_compat; [apply Rabs_pos|apply Rmult_le_pos; lra|apply Rabs_le; lra|apply Rmult_le_compat_r; lra].
        - rewrite Rmult_1_l, Rmult_plus_distr_r, Rmult_assoc. assert (u * (E * / (1 + E)) <= u) by nra. assert (bpow radix2 (-1074) * / (1 + E) <= bpow radix2 (-1074)) by nra. lra. }
      assert (Q2 : Rabs (1 / ((1 + e) * (1 + d1)) * (1 + d2) + h - 1 / (1 + e)) <= 3 * u64 + u64 / 8).
      { replace (1 / ((1 + e) * (1 + d1)) * (1 + d2) + h - 1 / (1 + e)) with (/ (1 + e) * ((d2 - d1) / (1 + d1)) + h) by (field; lra).
        assert (V1 : 0 < / (1 + e) <= 1) by (split; [apply Rinv_0_lt_compat; lra|rewrite <- Rinv_1; apply Rinv_le_contravar; lra]).
        assert (V2 : Rabs ((d2 - d1) / (1 + d1)) <= 3 * u64).
        { unfold Rdiv. rewrite Rabs_mult. assert (0 < / (1 + d1) <= 3 / 2). { split; [apply Rinv_0_lt_compat; lra|]. apply Rmult_le_reg_r with (1 + d1); [lra|]. rewrite Rinv_l by lra. lra. }
          rewrite (Rabs_right (/ _)) by lra. assert (Rabs (d2 - d1) <= 2 * u64) by (apply Rabs_le; lra). pose proof (Rabs_pos (d2 - d1)). nra. }
        eapply Rle_trans; [apply Rabs_triang|]. rewrite Rabs_mult, (Rabs_right (/ _)) by lra. pose proof (Rabs_pos ((d2 - d1) / (1 + d1))). assert (Rabs h <= u64 / 8) by (apply Rabs_le; lra). nra. }
      replace (_ - _) with ((1 / ((1 + e) * (1 + d1)) * (1 + d2) + h - 1 / (1 + e)) + (1 / (1 + e) - 1 / (1 + E))) by ring.
      eapply Rle_trans; [apply Rabs_triang|]. lra.
    - rewrite (I3 eq_refl). assert (bpow radix2 998 <= E).
      { destruct (is_finite (nexp (nopp x))) eqn:Fe.
        - specialize (A1 eq_refl). rewrite phi_finite in E2 by auto. rewrite (phi_finite (nexp (nopp x))) in D2 by auto. set (e := B2R (nexp (nopp x))) in *. clearbody e.
          assert (Le : bpow radix2 1000 < e).
          { apply Rnot_le_lt. intros L. assert (S : rnd64 (1 + e) <= bpow radix2 1001).
            { apply Rle_trans with (rnd64 (bpow radix2 1001)). - apply rnd64_le. change 1001%Z with (1000 + 1)%Z. rewrite bpow_plus. change (bpow radix2 1) with 2. assert (1 <= bpow radix2 1000) by (change 1 with (bpow radix2 0); apply bpow_le; lia). lra.
              - right. unfold rnd64. apply round_generic; [apply valid_rnd_N|]. apply generic_format_bpow. cbn. lia. }
            assert (T : bpow radix2 1001 < top64) by (apply bpow_lt; lia). assert (P : 0 <= rnd64 (1 + e)) by (rewrite <- rnd64_0; apply rnd64_le; lra).
            rewrite fr_in in D2 by (rewrite Rabs_right; lra). destruct (nadd nonev (nexp (nopp x))) as [z|[|]| |z m ex b]; try discriminate; cbn [phi] in D2, D3; [pose proof top_gt_1|]; lra. }
          clear Big D2 D3 I1 I2 I3 I4. apply Rabs_le_inv in A1. change 1000%Z with (998 + 2)%Z in Le. rewrite bpow_plus in Le. change (bpow radix2 2) with 4 in Le.
          assert (1 <= bpow radix2 998) by (change 1 with (bpow radix2 0); apply bpow_le; lia). set (B := bpow radix2 998) in *. clearbody B. assert (e <= 2 * E + 1) by nra. lra.
        - destruct (A2 eq_refl) as [_ H]. eapply Rle_trans; [|exact H]. apply bpow_le. lia. }
      specialize (Big H). pose proof u64_pos. rewrite Rminus_0_l, Rabs_Ropp, Rabs_right by lra. lra.
  Qed.
End Sigmoid.

(** The derivative from the output: y (1 - y) stays in [0, 1/4]. *)
Lemma quarter_tie : rnd64 (1 / 4 + bpow radix2 (-55)) = 1 / 4.
Proof.
  set (a := b64_bin 1 (-2)). set (b := b64_bin 1 (-55)).
  assert (Va : B2R a = 1 / 4 /\ is_finite a = true).
  { destruct a as [s|s| |s m e p] eqn:E; apply (f_equal B2SF) in E; vm_compute in E; try discriminate. injection E as <- <- <-. split; [|reflexivity]. cbn. unfold F2R. cbn. lra. }
  assert (Vb : B2R b = bpow radix2 (-55) /\ is_finite b = true).
  { destruct b as [s|s| |s m e p] eqn:E; apply (f_equal B2SF) in E; vm_compute in E; try discriminate. injection E as <- <- <-. split; [|reflexivity]. cbn. unfold F2R. cbn. lra. }
  assert (S : nadd a b = a) by (apply B2SF_inj; vm_compute; reflexivity).
  destruct Va as [Va Fa], Vb as [Vb Fb]. pose proof (finite_rnd _ _ (add_rounds a b Fa Fb)) as Q. rewrite S in Q. specialize (Q Fa). rewrite Va, Vb in Q. auto.
Qed.
Lemma grad_range (y : B64) : within 0 1 y -> within 0 (1 / 4) (nmul y (nsub nonev y)).
Proof.
  intros [F B]. pose proof top_gt_1 as T. pose proof (sub_rounds nonev y one_fin F) as S. rewrite one_b64 in S.
  assert (I : 0 <= rnd64 (1 - B2R y) <= 1). { pose proof (rnd64_le 0 (1 - B2R y) ltac:(lra)) as P0. pose proof (rnd64_le (1 - B2R y) 1 ltac:(lra)) as P1. rewrite rnd64_0 in P0. rewrite rnd64_1 in P1. auto. }
  destruct (op_finite _ _ S) as [Fz Vz]; [rewrite Rabs_right; lra|]. destruct (sub_err _ _ Fz) as (e & He & Ve). rewrite one_b64 in Ve.
  set (z := nsub nonev y) in *. clearbody z. rewrite Vz in Ve. rewrite Ve in Vz. rewrite Ve in I.
  assert (Hu : u64 = 4 * bpow radix2 (-55)) by (unfold u64; change (-53)%Z with (2 + -55)%Z; rewrite bpow_plus; cbn; lra).
  assert (Bd : 0 <= B2R y * B2R z <= 1 / 4 + bpow radix2 (-55)).
  { rewrite Vz. split; [apply Rmult_le_pos; lra|]. apply Rabs_le_inv in He. set (p := bpow radix2 (-55)) in *. clearbody p. set (v := B2R y) in *. clearbody v.
    assert (Q : v * (1 - v) <= 1 / 4) by (pose proof (Rle_0_sqr (v - 1 / 2)) as Sq; unfold Rsqr in Sq; lra). assert (Q0 : 0 <= v * (1 - v)) by (apply Rmult_le_pos; lra).
    rewrite <- Rmult_assoc. set (q := v * (1 - v)) in *. clearbody q. clear - Q Q0 He Hu. assert (q * e <= 1 / 4 * u64); [|lra]. apply Rle_trans with (q * u64); [apply Rmult_le_compat_l; lra|apply Rmult_le_compat_r; [apply Rlt_le, u64_pos|lra]]. }
  assert (J : 0 <= rnd64 (B2R y * B2R z) <= 1 / 4). { pose proof (rnd64_le _ _ (proj1 Bd)) as P0. pose proof (rnd64_le _ _ (proj2 Bd)) as P1. rewrite rnd64_0 in P0. rewrite quarter_tie in P1. auto. }
  destruct (op_finite _ _ (mul_rounds y z F Fz)) as [Fm Vm]; [rewrite Rabs_right; lra|]. split; auto. rewrite Vm. auto.
Qed.

(** Saturation. *)
Lemma exp_40 : exp (-40) <= u64 / 2.
Proof.
  replace (-40) with (Ropp 40) by lra. rewrite exp_Ropp.
  assert (P : (9 / 8) ^ 320 <= exp 40). { replace 40 with (INR 320 * (1 / 8)) by (rewrite INR_IZR_INZ; cbn; lra). 
    replace (exp (INR 320 * (1 / 8))) with (exp (1 / 8) ^ 320).
    - apply pow_incr. split; [lra|]. pose proof (exp_ineq1_le (1 / 8)). lra.
    - rewrite <- Rpower_pow by apply exp_pos. unfold Rpower. rewrite ln_exp. reflexivity. }
  assert (Q : 2 ^ 54 <= (9 / 8) ^ 320).
  { replace ((9 / 8) ^ 320) with (((9 / 8) ^ 20) ^ 16) by (rewrite <- pow_mult; reflexivity). apply Rle_trans with ((21 / 2) ^ 16); [cbn; lra|]. apply pow_incr. cbn. lra. }
  apply Rle_trans with (/ 2 ^ 54). - apply Rinv_le_contravar; [apply pow_lt; lra|lra].
  - right. unfold u64. cbn. lra.
Qed.
Section Saturated.
  Context {NF : NumFn B64}.
  Hypothesis G : sound_exp nexp.
  Variable u : R.
  Hypothesis U : 0 <= u <= / 1024.
  Hypothesis A : accurate_exp u nexp.
  Lemma one_inj (x : B64) : is_real x 1 -> x = nonev.
  Proof. intros [F V]. apply B2R_inj; [apply is_finite_strict_B2R; lra|apply is_finite_strict_B2R; rewrite one_b64; lra|]. rewrite one_b64. auto. Qed.
  Lemma sigmoid_saturates (x : B64) : Bleb (b64_of_Z 40) x = true -> sigmoid x = nonev.
  Proof.
    intros H. destruct (leb_nan _ _ H) as [N40 N]. apply one_inj. destruct (sigmoid_range G x N) as [F B]. split; auto.
    assert (S : B2R (sigmoid (b64_of_Z 40)) <= B2R (sigmoid x)) by (now apply sigmoid_mono).
    assert (R40 : is_real (b64_of_Z 40) 40).
    { pose proof (nofnat_real 40) as C. replace (INR 40) with 40 in C by (rewrite INR_IZR_INZ; reflexivity). apply C. unfold exact_count. lia. }
    destruct R40 as [F40 V40]. assert (E : 1 <= B2R (sigmoid (b64_of_Z 40))); [|lra]. clear S F B H N x.
    assert (Fo : is_finite (nopp (b64_of_Z 40)) = true) by (change (nopp (b64_of_Z 40)) with (Bopp (b64_of_Z 40)); now rewrite is_finite_Bopp).
    assert (Vo : B2R (nopp (b64_of_Z 40)) = -40) by (change (nopp (b64_of_Z 40)) with (Bopp (b64_of_Z 40)); rewrite B2R_Bopp, V40; lra).
    destruct (A _ Fo) as [A1 A2]. rewrite Vo in A1, A2. destruct (exp_nneg G (nopp (b64_of_Z 40))) as [E1 E2]; [now apply finite_nan|].
    pose proof exp_40 as X. pose proof tiny_pos as Tp. pose proof u_small as Us. pose proof (exp_pos (-40)) as Xp.
    destruct (is_finite (nexp (nopp (b64_of_Z 40)))) eqn:Fe.
    2:{ exfalso. destruct (A2 eq_refl) as [_ L]. assert (1 <= bpow radix2 1000) by (change 1 with (bpow radix2 0); apply bpow_le; lia). lra. }
    specialize (A1 eq_refl). rewrite phi_finite in E2 by auto. unfold sigmoid.
    destruct (den_val G (b64_of_Z 40) N40) as (D1 & D2 & D3). rewrite (phi_finite (nexp _)) in D2 by auto. set (e := nexp (nopp (b64_of_Z 40))) in *. clearbody e.
    assert (Le : 0 <= B2R e <= u64). { split; auto. apply Rabs_le_inv in A1. nra. }
    assert (R1 : rnd64 (1 + B2R e) = 1).
    { pose proof (rnd64_le 1 (1 + B2R e) ltac:(lra)) as P0. pose proof (rnd64_le (1 + B2R e) (1 + u64) ltac:(lra)) as P1. rewrite rnd64_1 in P0.
      assert (T : rnd64 (1 + u64) = 1).
      { set (a := b64_of_Z 1). set (b := b64_bin 1 (-53)). assert (Vb : B2R b = u64 /\ is_finite b = true).
        { destruct b as [s|s| |s m ex p] eqn:Eb; apply (f_equal B2SF) in Eb; vm_compute in Eb; try discriminate. injection Eb as <- <- <-. split; [|reflexivity]. unfold u64. cbn. unfold F2R. cbn. lra. }
        assert (Sm : nadd a b = a) by (apply B2SF_inj; vm_compute; reflexivity). destruct Vb as [Vb Fb].
        pose proof (finite_rnd _ _ (add_rounds a b one_fin Fb)) as Q. rewrite Sm in Q. specialize (Q one_fin). rewrite Vb in Q. change a with (nonev : B64) in Q. rewrite one_b64 in Q. auto. }
      lra. }
    pose proof top_gt_1. rewrite fr_in in D2 by (rewrite R1, Rabs_R1; auto). rewrite R1 in D2.
    assert (Fd : is_finite (nadd nonev e) = true). { destruct (nadd nonev e) as [s|[|]| |s m ex p]; try discriminate; auto; cbn [phi] in D2; lra. }
    destruct (inv_val _ D1 D3) as (_ & I2 & _). rewrite I2 by auto. rewrite phi_finite in D2 by auto. rewrite D2. replace (1 / 1) with 1 by lra. rewrite rnd64_1. lra.
  Qed.
  (** NaN anywhere in a sum. *)
  Lemma nan_add_l (y : B64) : nadd (B754_nan : B64) y = B754_nan. Proof. now destruct y. Qed.
  Lemma nan_add_r (x : B64) : nadd x (B754_nan : B64) = B754_nan. Proof. now destruct x as [[|]|[|]| |[|] ? ? ?]. Qed.
  Lemma nan_fold (l : list B64) : fold_left nadd l B754_nan = B754_nan.
  Proof. induction l as [|x l IH]; [reflexivity|]. cbn [fold_left]. now rewrite nan_add_l. Qed.
  Lemma nan_sum (l : list B64) : In B754_nan l -> forall a, fold_left nadd l a = B754_nan.
  Proof. induction l as [|x l IH]; intros H a; [contradiction|]. destruct H as [E|H]; cbn [fold_left]; [rewrite E, nan_add_r; apply nan_fold|now apply IH]. Qed.
  Lemma one_minus_one : nadd (nopp (nonev : B64)) nonev = B754_zero false.
  Proof. apply B2SF_inj. vm_compute. reflexivity. Qed.
  Theorem cost_nan (outputs targets : list B64) i : nln (B754_zero false : B64) = B754_infinity true -> length outputs = length targets -> (i < length outputs)%nat ->
    nth i outputs nzero = nonev -> nth i targets nzero = nonev -> ce_cost_vec outputs targets = Ok B754_nan.
  Proof.
    intros L E Hi Ho Ht. unfold ce_cost_vec, rassert. rewrite E, Nat.eqb_refl. f_equal. unfold vsum.
    rewrite nan_sum; [destruct (nofnat (length targets) : B64); reflexivity|].
    assert (Q : nth i (vadd (velemul targets (map nln outputs)) (velemul (map (fun x => nadd (nopp x) nonev) targets) (map nln (map (fun x => nadd (nopp x) nonev) outputs)))) nzero = B754_nan).
    { unfold vadd, velemul. rewrite (map2_nth nadd _ _ i nzero nzero nzero) by (rewrite map2_length, ?map_length; rewrite ?map2_length, ?map_length; lia).
      rewrite (map2_nth nmul (map _ targets) _ i nzero nzero nzero) by (rewrite !map_length; lia).
      rewrite (nth_map (fun x => nadd (nopp x) nonev) targets i nzero nzero) by lia. rewrite (nth_map nln _ i nzero nzero) by (rewrite map_length; lia).
      rewrite (nth_map (fun x => nadd (nopp x) nonev) outputs i nzero nzero) by lia. rewrite Ho, Ht, one_minus_one, L. change (nmul (B754_zero false : B64) (B754_infinity true)) with (B754_nan : B64). apply nan_add_r. }
    rewrite <- Q. apply nth_In. unfold vadd, velemul. rewrite !map2_length, !map_length. lia.
  Qed.
  (** A row that is classified correctly with a score of 40 or more makes the cost of the whole batch NaN. *)
  Theorem confident_row_nan (X : matrix B64) (y w z : list B64) i c g : nln (B754_zero false : B64) = B754_infinity true ->
    rmat_vec X w = Ok z -> (i < length z)%nat -> Bleb (b64_of_Z 40) (nth i z nzero) = true -> nth i y nzero = nonev -> log_compute_grad X y w = Ok (c, g) -> c = B754_nan.
  Proof.
    intros L E Hi Hz Hy. unfold log_compute_grad. rewrite E. cbn [rbind].
    destruct (Nat.eq_dec (length (map sigmoid z)) (length y)) as [El|El].
    - rewrite (cost_nan _ _ i L El); auto; [|now rewrite map_length|rewrite (nth_map sigmoid z i nzero nzero) by auto; now apply sigmoid_saturates].
      cbn [rbind]. destruct (rvsub (map sigmoid z) y) as [df| |]; cbn [rbind]; try discriminate. destruct (rmat_vec (transpose X) df) as [gg| |]; cbn [rbind]; try discriminate. congruence.
    - unfold ce_cost_vec, rassert. apply Nat.eqb_neq in El. rewrite El. discriminate.
  Qed.
End Saturated.

(** Predictions of a trained model. *)
Theorem log_predict_range (NF : NumFn B64) (self : LogisticRegressor B64) (Z : matrix B64) w z : sound_exp nexp -> log_parameters self = Some w -> rmat_vec (with_ones Z) w = Ok z ->
  exists out, log_predict self Z = Ok out /\ length out = length z /\ forall i, (i < length z)%nat -> is_nan (nth i z nzero) = false ->
    within 0 1 (nth i out nzero) /\ (1 / 2 < B2R (nth i out nzero) -> Bltb nzero (nth i z nzero) = true) /\ (B2R (nth i out nzero) < 1 / 2 -> Bltb (nth i z nzero) nzero = true) /\
    forall j, (j < length z)%nat -> Bleb (nth i z nzero) (nth j z nzero) = true -> B2R (nth i out nzero) <= B2R (nth j out nzero).
Proof.
  intros G P E. exists (map sigmoid z). unfold log_predict. rewrite P, E. split; [reflexivity|]. split; [apply map_length|]. intros i Hi N.
  rewrite (nth_map sigmoid z i nzero nzero) by auto. split; [now apply sigmoid_range|]. split; [now apply sigmoid_decides|]. split; [now apply sigmoid_decides|].
  intros j Hj L. rewrite (nth_map sigmoid z j nzero nzero) by auto. now apply sigmoid_mono.
Qed.
