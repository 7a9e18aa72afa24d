From Coq Require Import List Arith Bool Reals ZArith Lia Lra.
From Flocq Require Import Core BinarySingleNaN Relative Plus_error.
From Verif Require Import Base BaseLemmas Num NumX NumF B64Lemmas Linalg LinalgR Spec_Calc CalcR Spec_B64 B64Err Proof_CellB64 Model_Transforms Spec_Transforms Spec_TransformsB64 Proof_MinMax.
Import ListNotations.
Local Open Scope R_scope.

(** ** Results that do not overflow *)
Lemma fin_small (r : B64) v : rounds_to r v -> Rabs v <= bpow radix2 1023 -> is_finite r = true.
Proof.
  intros [N P] B. assert (L : Rabs (rnd64 v) < top64).
  { apply Rle_lt_trans with (bpow radix2 1023).
    - unfold rnd64. apply abs_round_le_generic; auto; [apply FLT_exp_valid; reflexivity|apply valid_rnd_N|].
      apply generic_format_bpow. unfold SpecFloat.fexp, SpecFloat.emin; cbn. lia.
    - apply bpow_lt. lia. }
  rewrite (fr_in _ L) in P. destruct r as [s|s| |s m e b]; auto.
  - exfalso. rewrite <- P in L. pose proof top64_pos as T. unfold phi in L. destruct s; [rewrite Rabs_Ropp in L|]; rewrite Rabs_right in L; lra.
Qed.

Lemma big_1000 : bpow radix2 1023 = 8388608 * bpow radix2 1000.
Proof. replace 1023%Z with (23 + 1000)%Z by reflexivity. rewrite bpow_plus. reflexivity. Qed.
Lemma one_1000 : 1 <= bpow radix2 1000. Proof. change 1 with (bpow radix2 0). apply bpow_le. lia. Qed.
Lemma p900_1000 : bpow radix2 900 <= bpow radix2 1000. Proof. apply bpow_le. lia. Qed.
Lemma h64_one : h64 <= 1. Proof. change 1 with (bpow radix2 0). apply bpow_le. lia. Qed.
Lemma u_one : u64 <= / 1024. Proof. apply u_small. Qed.

Section Cell64.
  Variables (A B lo hi : B64).
  Hypotheses (FA : is_finite A = true) (FB : is_finite B = true) (Fl : is_finite lo = true) (Fh : is_finite hi = true).
  Hypotheses (AB : B2R A <= B2R B) (LH : B2R lo < B2R hi).
  Hypotheses (SA : Rabs (B2R A) <= bpow radix2 900) (SB : Rabs (B2R B) <= bpow radix2 900)
    (Sl : Rabs (B2R lo) <= bpow radix2 1000) (Sh : Rabs (B2R hi) <= bpow radix2 1000).
  Let M := Rmax (Rabs (B2R lo)) (Rabs (B2R hi)).
  Let S := (B2R B - B2R A) / (B2R hi - B2R lo).
  Hypothesis SS : (1 + M) * S <= bpow radix2 1000.
  Definition sc64 : B64 := ndiv (nsub B A) (nsub hi lo).
  Definition cst64 : B64 := nsub B (nmul hi sc64).
  Definition out64 (x : B64) : B64 := nadd (nmul x sc64) cst64.

  Lemma S_pos : 0 <= S.
  Proof. apply Rmult_le_pos; [lra|]. left. apply Rinv_0_lt_compat. lra. Qed.
  Lemma M_pos : 0 <= M /\ M <= bpow radix2 1000.
  Proof. unfold M. split; [apply Rle_trans with (2 := Rmax_l _ _); apply Rabs_pos|]. apply Rmax_lub; auto. Qed.
  Lemma num_fin : is_finite (nsub B A) = true.
  Proof.
    apply (fin_small _ _ (sub_rounds B A FB FA)). rewrite big_1000. pose proof one_1000. pose proof p900_1000.
    apply Rle_trans with (1 := asub _ _ _ _ SB SA). lra.
  Qed.
  Lemma den_fin : is_finite (nsub hi lo) = true.
  Proof.
    apply (fin_small _ _ (sub_rounds hi lo Fh Fl)). rewrite big_1000. pose proof one_1000.
    apply Rle_trans with (1 := asub _ _ _ _ Sh Sl). lra.
  Qed.

  Lemma scale_facts : is_finite sc64 = true /\ exists e1 e2 e3 h3, Rabs e1 <= u64 /\ Rabs e2 <= u64 /\ Rabs e3 <= u64 /\ Rabs h3 <= h64 /\
    B2R sc64 = (B2R B - B2R A) * (1 + e1) / ((B2R hi - B2R lo) * (1 + e2)) * (1 + e3) + h3.
  Proof.
    destruct (sub_err B A num_fin) as (e1 & E1 & N1). destruct (sub_err hi lo den_fin) as (e2 & E2 & N2).
    pose proof u_small as U. apply Rabs_le_inv in E2 as E2'.
    assert (D : B2R (nsub hi lo) <> 0).
    { rewrite N2. assert (0 < (B2R hi - B2R lo) * (1 + e2)) by (apply Rmult_lt_0_compat; lra). lra. }
    assert (F : is_finite sc64 = true).
    { apply (fin_small _ _ (div_rounds _ _ num_fin den_fin D)). rewrite N1, N2, big_1000. pose proof one_1000 as P1. pose proof M_pos as [M0 _]. pose proof S_pos as S0.
      replace ((B2R B - B2R A) * (1 + e1) / ((B2R hi - B2R lo) * (1 + e2))) with (S * ((1 + e1) * (1 + 0) / (1 + e2))) by (unfold S; field; lra).
      pose proof (ratio_err e1 e2 0 E1 E2 ltac:(rewrite Rabs_R0; lra)) as R1. apply Rabs_le_inv in R1.
      assert (S <= bpow radix2 1000) by (assert (0 <= M * S) by (apply Rmult_le_pos; auto); lra).
      set (X := (1 + e1) * (1 + 0) / (1 + e2)) in *. clearbody X.
      assert (S2 : Rabs S <= S) by (rewrite Rabs_right; [lra|apply Rle_ge; auto]).
      assert (X2 : Rabs X <= 2) by (apply Rabs_le; lra).
      apply Rle_trans with (1 := amul _ _ _ _ S2 X2). clearbody S. lra. }
    split; auto. destruct (div_err _ _ F den_fin) as (_ & e3 & h3 & E3 & H3 & N3). exists e1, e2, e3, h3. repeat split; auto.
    unfold sc64. rewrite N3, N1, N2. reflexivity.
  Qed.
  Lemma scale_size : Rabs (B2R sc64) <= 1030 / 1024 * S + h64.
  Proof.
    destruct scale_facts as (_ & e1 & e2 & e3 & h3 & E1 & E2 & E3 & H3 & E). pose proof u_small as U. pose proof S_pos as S0.
    pose proof (cell_scale_abs (B2R A) (B2R B) (B2R lo) (B2R hi) AB LH e1 e2 e3 h3 E1 E2 E3 H3 (B2R sc64) E) as Q. fold S in Q.
    assert (u64 * S <= / 1024 * S) by (apply Rmult_le_compat_r; lra). lra.
  Qed.
  Lemma scale_nonneg : 0 <= B2R sc64.
  Proof.
    destruct scale_facts as (F & e1 & e2 & _ & _ & E1 & E2 & _). clear e1 e2 E1 E2.
    destruct (sub_err B A num_fin) as (e1 & E1 & N1). destruct (sub_err hi lo den_fin) as (e2 & E2 & N2).
    pose proof u_small as U. apply Rabs_le_inv in E2 as E2'. apply Rabs_le_inv in E1 as E1'.
    assert (D : 0 < B2R (nsub hi lo)) by (rewrite N2; apply Rmult_lt_0_compat; lra).
    unfold sc64. rewrite (finite_rnd _ _ (div_rounds _ _ num_fin den_fin ltac:(lra)) F). rewrite <- rnd64_0. apply rnd64_le.
    apply Rmult_le_pos; [rewrite N1; apply Rmult_le_pos; lra|left; apply Rinv_0_lt_compat; auto].
  Qed.
  Lemma prod_fin (x : B64) : is_finite x = true -> Rabs (B2R x) <= M -> is_finite (nmul x sc64) = true /\ Rabs (B2R (nmul x sc64)) <= 5 * bpow radix2 1000.
  Proof.
    intros Fx Bx. destruct scale_facts as (F & _). pose proof scale_size as Q. pose proof M_pos as [M0 M1]. pose proof S_pos as S0.
    pose proof one_1000 as P1. pose proof h64_one. pose proof h64_pos. pose proof u_small.
    assert (MS : M * S <= bpow radix2 1000) by lra.
    assert (Mh : M * h64 <= bpow radix2 1000) by (apply Rle_trans with (bpow radix2 1000 * 1); [apply Rmult_le_compat; lra|lra]).
    assert (V : Rabs (B2R x * B2R sc64) <= 2 * bpow radix2 1000 + 1030 / 1024 * bpow radix2 1000).
    { apply Rle_trans with (1 := amul _ _ _ _ Bx Q). lra. }
    assert (G : is_finite (nmul x sc64) = true). { apply (fin_small _ _ (mul_rounds _ _ Fx F)). rewrite big_1000. lra. }
    split; auto. destruct (mul_err _ _ G) as (e & h & E & H' & ->).
    apply Rle_trans with (1 := aadd _ _ _ _ (amul _ _ _ _ V (a1 e E)) H'). lra.
  Qed.
  Lemma cst_fin : is_finite cst64 = true /\ Rabs (B2R cst64) <= 7 * bpow radix2 1000.
  Proof.
    destruct (prod_fin hi Fh (Rmax_r _ _)) as [F V]. pose proof p900_1000. pose proof one_1000.
    assert (W : Rabs (B2R B - B2R (nmul hi sc64)) <= 6 * bpow radix2 1000). { apply Rle_trans with (1 := asub _ _ _ _ SB V). lra. }
    assert (G : is_finite cst64 = true). { apply (fin_small _ _ (sub_rounds _ _ FB F)). rewrite big_1000. lra. }
    split; auto. destruct (sub_err _ _ G) as (e & E & Ec). unfold cst64. rewrite Ec.
    apply Rle_trans with (1 := amul _ _ _ _ W (a1 e E)). lra.
  Qed.
  Lemma cell_ok (x : B64) : is_finite x = true -> B2R lo <= B2R x <= B2R hi ->
    is_finite (out64 x) = true /\
    Rabs (B2R (out64 x) - stretch (B2R A) (B2R B) (B2R lo) (B2R hi) (B2R x)) <= stretch_slack (B2R A) (B2R B) (B2R lo) (B2R hi).
  Proof.
    intros Fx Bx. assert (Mx : Rabs (B2R x) <= M).
    { assert (P1 : Rabs (B2R hi) <= M) by apply Rmax_r. assert (P2 : Rabs (B2R lo) <= M) by apply Rmax_l.
      apply Rabs_le_inv in P1. apply Rabs_le_inv in P2. apply Rabs_le; lra. }
    destruct (prod_fin x Fx Mx) as [Fq Vq]. destruct cst_fin as [Fc Vc]. destruct (prod_fin hi Fh (Rmax_r _ _)) as [Fp Vp].
    pose proof one_1000.
    assert (G : is_finite (out64 x) = true).
    { apply (fin_small _ _ (add_rounds _ _ Fq Fc)). rewrite big_1000. apply Rle_trans with (1 := aadd _ _ _ _ Vq Vc). lra. }
    split; auto.
    destruct scale_facts as (_ & e1 & e2 & e3 & h3 & E1 & E2 & E3 & H3 & Es).
    destruct (mul_err _ _ Fq) as (e4 & h4 & E4 & H4 & Eq). destruct (mul_err _ _ Fp) as (e5 & h5 & E5 & H5 & Ep).
    destruct (sub_err _ _ Fc) as (e6 & E6 & Ec). destruct (add_err _ _ G) as (e7 & E7 & Eo).
    exact (cell_error (B2R A) (B2R B) (B2R lo) (B2R hi) (B2R x) AB LH Bx e1 e2 e3 e4 e5 e6 e7 h3 h4 h5 E1 E2 E3 E4 E5 E6 E7 H3 H4 H5
             _ _ _ _ _ Es Ep Eq Ec Eo).
  Qed.
  Definition back64 (x : B64) : B64 := ndiv (nsub (out64 x) cst64) sc64.
  Lemma back_ok (x : B64) : is_finite x = true -> B2R lo <= B2R x <= B2R hi ->
    bpow radix2 (-1000) <= S -> (Rabs (B2R A) + Rabs (B2R B)) / S <= bpow radix2 1000 ->
    is_finite (back64 x) = true /\ Rabs (B2R (back64 x) - B2R x) <= back_slack (B2R A) (B2R B) (B2R lo) (B2R hi).
  Proof.
    intros Fx Bx Slow WS. destruct (cell_ok x Fx Bx) as [Fo Eo']. pose proof M_pos as [M0 M1]. pose proof u_small as U. pose proof h64_pos as HP. pose proof one_1000.
    assert (Mx : Rabs (B2R x) <= M).
    { assert (P1 : Rabs (B2R hi) <= M) by apply Rmax_r. assert (P2 : Rabs (B2R lo) <= M) by apply Rmax_l.
      apply Rabs_le_inv in P1. apply Rabs_le_inv in P2. apply Rabs_le; lra. }
    destruct (prod_fin x Fx Mx) as [Fq Vq]. destruct cst_fin as [Fc Vc].
    destruct scale_facts as (Fs & e1 & e2 & e3 & h3 & E1 & E2 & E3 & H3 & Es).
    destruct (mul_err _ _ Fq) as (e4 & h4 & E4 & H4 & Eq). destruct (add_err _ _ Fo) as (e7 & E7 & Eo).
    assert (S0 : 0 < S) by (apply Rlt_le_trans with (2 := Slow); apply bpow_gt_0).
    assert (hS : h64 <= u64 * S).
    { apply Rle_trans with (u64 * bpow radix2 (-1000)); [|apply Rmult_le_compat_l; lra]. unfold h64, u64. rewrite <- bpow_plus. apply bpow_le. lia. }
    pose proof (cell_scale (B2R A) (B2R B) (B2R lo) (B2R hi) AB LH e1 e2 e3 h3 E1 E2 E3 H3 (B2R sc64) Es) as Cs. fold S in Cs.
    set (W := Rabs (B2R A) + Rabs (B2R B)) in *. assert (W0 : 0 <= W) by (unfold W; pose proof (Rabs_pos (B2R A)); pose proof (Rabs_pos (B2R B)); lra).
    assert (ST : Rabs (stretch (B2R A) (B2R B) (B2R lo) (B2R hi) (B2R x)) <= W).
    { unfold stretch. fold S. assert (SD : (B2R hi - B2R lo) * S = B2R B - B2R A) by (unfold S; field; lra).
      assert (0 <= (B2R x - B2R lo) * S) by (apply Rmult_le_pos; lra).
      assert ((B2R x - B2R lo) * S <= (B2R hi - B2R lo) * S) by (apply Rmult_le_compat_r; lra).
      unfold W. pose proof (Rle_abs (B2R B)). pose proof (Rle_abs (- B2R A)). rewrite Rabs_Ropp in *. pose proof (Rabs_pos (B2R A)). pose proof (Rabs_pos (B2R B)).
      clearbody S. apply Rabs_le. lra. }
    assert (Bo : Rabs (B2R (out64 x)) <= W + (8 * u64 * (W + M * S) + 4 * (M + 1) * h64)).
    { replace (B2R (out64 x)) with (stretch (B2R A) (B2R B) (B2R lo) (B2R hi) (B2R x) + (B2R (out64 x) - stretch (B2R A) (B2R B) (B2R lo) (B2R hi) (B2R x))) by ring.
      apply aadd; auto. }
    assert (Fd : is_finite (nsub (out64 x) cst64) = true).
    { apply (fin_small _ _ (sub_rounds _ _ Fo Fc)). rewrite big_1000.
      assert (Vo : Rabs (B2R (out64 x)) <= 13 * bpow radix2 1000).
      { unfold out64. rewrite Eo. apply Rle_trans with (1 := amul _ _ _ _ (aadd _ _ _ _ Vq Vc) (a1 e7 E7)). lra. }
      apply Rle_trans with (1 := asub _ _ _ _ Vo Vc). lra. }
    destruct (sub_err _ _ Fd) as (e8 & E8 & Ed).
    pose proof (back_scale S (B2R sc64) S0 hS Cs) as Bs.
    assert (sN : B2R sc64 <> 0) by lra.
    assert (Z0 : Rabs 0 <= u64) by (rewrite Rabs_R0; lra). assert (Zh : Rabs 0 <= h64) by (rewrite Rabs_R0; lra).
    assert (hk : h64 / S <= 1). { apply Rmult_le_reg_r with S; auto. unfold Rdiv. rewrite Rmult_assoc, Rinv_l, Rmult_1_r by lra. assert (u64 * S <= 1 * S) by (apply Rmult_le_compat_r; lra). lra. }
    assert (Fb : is_finite (back64 x) = true).
    { apply (fin_small _ _ (div_rounds _ _ Fd Fs sN)). rewrite big_1000.
      destruct (back_error S (B2R sc64) M W (B2R x) (B2R cst64) (B2R (nmul x sc64)) (B2R (out64 x)) (B2R (nsub (out64 x) cst64)) _ S0 M0 W0 hS Cs Mx e4 e7 e8 0 h4 0 E4 E7 E8 Z0 H4 Zh Eq Eo Ed eq_refl Bo) as [Q _].
      clearbody S. lra. }
    split; auto. destruct (div_err _ _ Fb Fs) as (_ & e9 & h9 & E9 & H9 & Eb).
    apply (back_error S (B2R sc64) M W (B2R x) (B2R cst64) (B2R (nmul x sc64)) (B2R (out64 x)) (B2R (nsub (out64 x) cst64)) _ S0 M0 W0 hS Cs Mx e4 e7 e8 e9 h4 h9 E4 E7 E8 E9 H4 H9 Eq Eo Ed Eb Bo).
  Qed.
End Cell64.

Lemma lin_mono (s c x y : B64) : 0 <= B2R s -> is_finite (nadd (nmul x s) c) = true -> is_finite (nadd (nmul y s) c) = true ->
  B2R x <= B2R y -> B2R (nadd (nmul x s) c) <= B2R (nadd (nmul y s) c).
Proof.
  intros S0 F1 F2 L. destruct (nadd_finite_inv _ _ F1) as [G1 Fc]. destruct (nadd_finite_inv _ _ F2) as [G2 _].
  destruct (nmul_finite_inv _ _ G1) as [Fx Fs]. destruct (nmul_finite_inv _ _ G2) as [Fy _].
  rewrite (finite_rnd _ _ (add_rounds _ _ G1 Fc) F1), (finite_rnd _ _ (add_rounds _ _ G2 Fc) F2).
  apply rnd64_le. apply Rplus_le_compat_r.
  rewrite (finite_rnd _ _ (mul_rounds _ _ Fx Fs) G1), (finite_rnd _ _ (mul_rounds _ _ Fy Fs) G2).
  apply rnd64_le. apply Rmult_le_compat_r; auto.
Qed.

(** ** Matrices *)
Lemma cell_real m i j : entry (real_mat m) i j = B2R (cell m i j).
Proof.
  unfold entry, cell, real_mat; cbn [mrows]. change (@nil R) with (real_vec nil). rewrite map_nth. unfold real_vec.
  change 0 with (B2R (B754_zero false : B64)). apply map_nth.
Qed.
Lemma real_mat_rows m : nrows (real_mat m) = nrows m. Proof. apply map_length. Qed.
Lemma real_mat_wf m : mwf m -> mwf (real_mat m).
Proof.
  intros W. unfold mwf, real_mat in *; cbn [mrows mcols] in *. apply Forall_map. eapply Forall_impl; [|exact W]. intros r Hr. unfold real_vec. rewrite map_length. auto.
Qed.

Lemma ltb_real (x y : B64) : is_finite x = true -> is_finite y = true -> nltb x y = true <-> B2R x < B2R y.
Proof.
  intros Fx Fy. rewrite (phi_ltb x y) by (apply finite_nan; auto). rewrite !phi_finite by auto. tauto.
Qed.
Definition rp (p : B64 * B64) : R * R := (B2R (fst p), B2R (snd p)).
Definition finpair (p : B64 * B64) : Prop := is_finite (fst p) = true /\ is_finite (snd p) = true.
Lemma step_real (x a b : B64) : is_finite x = true -> is_finite a = true -> is_finite b = true ->
  let p := (if nltb x a then x else a, if nltb b x then x else b) in finpair p /\ rp p = rmm (B2R x) (rp (a, b)).
Proof.
  intros Fx Fa Fb. cbv zeta. unfold finpair, rp, rmm; cbn [fst snd]. split; [destruct (nltb x a), (nltb b x); auto|].
  f_equal.
  - destruct (nltb x a) eqn:E, (Rlt_dec (B2R x) (B2R a)) as [L|L]; auto; exfalso; [apply ltb_real in E|apply ltb_real in L]; auto; congruence.
  - destruct (nltb b x) eqn:E, (Rlt_dec (B2R b) (B2R x)) as [L|L]; auto; exfalso; [apply ltb_real in E|apply ltb_real in L]; auto; congruence.
Qed.
Lemma row_real row : forall mm, length row = length mm -> finite_vec row -> Forall finpair mm ->
  exists mm', minmax_row row mm = Ok mm' /\ Forall finpair mm' /\ map rp mm' = map2 rmm (real_vec row) (map rp mm) /\ length mm' = length mm.
Proof.
  induction row as [|x row IH]; intros [|[a b] mm] L Fr Fm; try discriminate L.
  - exists []. repeat split; auto.
  - inversion Fr as [|? ? Fx Fr']; subst. inversion Fm as [|? ? [Fa Fb] Fm']; subst. cbn [fst snd] in *.
    destruct (IH mm ltac:(simpl in L; lia) Fr' Fm') as (mm' & E & G & R & Lm). destruct (step_real x a b Fx Fa Fb) as [P Q].
    cbn [minmax_row]. change (nfinite x) with (is_finite x). rewrite Fx. cbn [negb]. rewrite E. cbn [rbind].
    eexists. split; [reflexivity|]. split; [constructor; auto|]. split; [|simpl; lia].
    cbn [map real_vec map2]. f_equal; auto.
Qed.
Lemma rows_real rows : forall mm, Forall (fun r => length r = length mm) rows -> Forall finite_vec rows -> Forall finpair mm ->
  exists mm', minmax_rows rows mm = Ok mm' /\ Forall finpair mm' /\ map rp mm' = fold_left (fun mm row => map2 rmm row mm) (map real_vec rows) (map rp mm) /\ length mm' = length mm.
Proof.
  induction rows as [|r rows IH]; intros mm L Fr Fm.
  - exists mm. auto.
  - inversion L; subst. inversion Fr; subst. destruct (row_real r mm ltac:(auto) ltac:(auto) Fm) as (m1 & E & G & R & Lm).
    destruct (IH m1) as (mm' & E' & G' & R' & Lm'); auto. { rewrite Lm; auto. }
    exists mm'. cbn [minmax_rows]. rewrite E. cbn [rbind]. split; [auto|]. split; auto. split; [|lia]. cbn [map fold_left]. rewrite R', R. reflexivity.
Qed.
Lemma max_real : is_finite (nmaxv : B64) = true /\ B2R (nmaxv : B64) = f64_max_R.
Proof.
  assert (E : B2SF (nmaxv : B64) = SpecFloat.S754_finite false (2 ^ 53 - 1) 971) by (vm_compute; reflexivity).
  split.
  - rewrite <- is_finite_SF_B2SF, E. reflexivity.
  - rewrite <- SF2R_B2SF, E. unfold SF2R, F2R; cbn [Fnum Fexp cond_Zopp]. unfold f64_max_R. rewrite (IZR_Zpower radix2) by lia. reflexivity.
Qed.
Lemma max_pair : finpair (nmaxv, nopp nmaxv).
Proof. destruct max_real as [F _]. split; [exact F|]. cbn [snd]. rewrite <- F. apply is_finite_Bopp. Qed.
Lemma row_finite (m : matrix B64) : mwf m -> (forall i j, (i < nrows m)%nat -> (j < mcols m)%nat -> is_finite (cell m i j) = true) -> Forall finite_vec (mrows m).
Proof.
  intros W H. apply Forall_forall. intros r Hr. apply Forall_forall. intros x Hx.
  apply (In_nth _ _ []) in Hr. destruct Hr as (i & Hi & <-). apply (In_nth _ _ (B754_zero false)) in Hx. destruct Hx as (j & Hj & <-).
  apply (H i j); auto. rewrite <- (proj1 (Forall_forall _ _) W (nth i (mrows m) []) (nth_In _ _ Hi)). auto.
Qed.
Lemma map_repeat {A B} (f : A -> B) x n : map f (repeat x n) = repeat (f x) n.
Proof. induction n; simpl; congruence. Qed.
Lemma mm_real m : mwf m -> Forall finite_vec (mrows m) ->
  exists mm, minmax_rows (mrows m) (repeat (nmaxv, nopp nmaxv) (mcols m)) = Ok mm /\ Forall finpair mm /\ map rp mm = mm_of (real_mat m) /\ length mm = mcols m.
Proof.
  intros W F. destruct max_real as [F1 F2].
  destruct (rows_real (mrows m) (repeat (nmaxv, nopp nmaxv) (mcols m))) as (mm & E & G & R & L).
  - rewrite repeat_length. exact W.
  - exact F.
  - apply Forall_forall. intros p Hp. apply repeat_spec in Hp. subst p. apply max_pair.
  - exists mm. split; auto. split; auto. split; [|rewrite L, repeat_length; auto].
    rewrite R. unfold mm_of, real_mat; cbn [mrows mcols]. f_equal. rewrite map_repeat. f_equal. unfold rp; cbn [fst snd].
    rewrite F2. f_equal. change (nopp nmaxv : B64) with (Bopp (nmaxv : B64)). rewrite B2R_Bopp, F2. reflexivity.
Qed.

Definition scp (a b : B64) (p : B64 * B64) : B64 := sc64 a b (fst p) (snd p).
Definition csp (a b : B64) (p : B64 * B64) : B64 := cst64 a b (fst p) (snd p).
Lemma rmap_scale64 a b mm : Forall (fun p => is_finite (scp a b p) = true) mm -> rmap (minmax_scale a b) mm = Ok (map (scp a b) mm).
Proof.
  induction 1 as [|p mm Hp H IH]; auto. cbn [rmap map]. unfold minmax_scale at 1. change (nfinite ((b - a) / (snd p - fst p))%num) with (is_finite (scp a b p)).
  rewrite Hp, IH. reflexivity.
Qed.
Lemma rmap_scale64_inv a b mm : forall l, rmap (minmax_scale a b) mm = Ok l -> l = map (scp a b) mm /\ Forall (fun p => is_finite (scp a b p) = true) mm.
Proof.
  induction mm as [|p mm IH]; intros l H; cbn [rmap] in H.
  - inversion H. split; auto.
  - unfold minmax_scale at 1 in H. change (nfinite ((b - a) / (snd p - fst p))%num) with (is_finite (scp a b p)) in H.
    destruct (is_finite (scp a b p)) eqn:Fp; [|discriminate H]. cbn [rbind] in H. destruct (rmap (minmax_scale a b) mm) as [l'| |]; try discriminate H.
    inversion H. destruct (IH l' eq_refl) as [-> G]. split; auto.
Qed.
Definition fitted64 (a b : B64) (mm : list (B64 * B64)) : MinMaxScaler B64 :=
  {| scale_factors := map (scp a b) mm; const_factors := map (csp a b) mm |}.
Lemma consts64 a b mm : map2 (fun xy s => nsub b (nmul (snd xy) s)) mm (map (scp a b) mm) = map (csp a b) mm.
Proof. induction mm as [|p mm IH]; auto. cbn [map map2]. rewrite IH. reflexivity. Qed.
Lemma fit64 a b m mm : minmax_rows (mrows m) (repeat (nmaxv, nopp nmaxv) (mcols m)) = Ok mm -> Forall (fun p => is_finite (scp a b p) = true) mm ->
  minmax_fit a b m = Ok (fitted64 a b mm).
Proof. intros E F. unfold minmax_fit. rewrite E. cbn [rbind]. rewrite rmap_scale64 by auto. cbn [rbind]. rewrite consts64. reflexivity. Qed.
Lemma fit64_inv a b m sc : minmax_fit a b m = Ok sc ->
  exists mm, minmax_rows (mrows m) (repeat (nmaxv, nopp nmaxv) (mcols m)) = Ok mm /\ sc = fitted64 a b mm /\ Forall (fun p => is_finite (scp a b p) = true) mm.
Proof.
  unfold minmax_fit. intros H. destruct (minmax_rows (mrows m) (repeat (nmaxv, nopp nmaxv) (mcols m))) as [mm| |] eqn:E; try discriminate H. cbn [rbind] in H.
  destruct (rmap (minmax_scale a b) mm) as [l| |] eqn:R; try discriminate H. cbn [rbind] in H. destruct (rmap_scale64_inv _ _ _ _ R) as [-> F].
  rewrite consts64 in H. inversion H. exists mm. auto.
Qed.
Lemma transform64 a b mm m out : minmax_transform (fitted64 a b mm) m = Ok out ->
  length mm = mcols m /\ nrows out = nrows m /\ mcols out = mcols m /\ (mwf m -> mwf out) /\
  forall i j, mwf m -> (i < nrows m)%nat -> (j < mcols m)%nat ->
    cell out i j = nadd (nmul (cell m i j) (scp a b (nth j mm (nzero, nzero)))) (csp a b (nth j mm (nzero, nzero))).
Proof.
  unfold minmax_transform, fitted64; cbn [scale_factors const_factors]. rewrite map_length.
  destruct (length mm =? mcols m)%nat eqn:L; cbn [negb]; [|discriminate]. apply Nat.eqb_eq in L. intros H; inversion H; subst out; clear H.
  split; auto. split; [unfold nrows; cbn [mrows]; apply map_length|]. split; auto. split.
  - intros W. unfold mwf in *; cbn [mrows mcols]. apply Forall_map. eapply Forall_impl; [|exact W]. intros r Hr. cbv beta in *. rewrite !map2_length, !map_length, Hr. lia.
  - intros i j W Hi Hj. unfold cell; cbn [mrows]. unfold nrows in Hi.
    pose proof (proj1 (Forall_forall _ _) W (nth i (mrows m) []) (nth_In _ _ Hi)) as Lr.
    set (f := fun row : list B64 => map2 nadd (map2 nmul row (map (scp a b) mm)) (map (csp a b) mm)).
    rewrite (nth_indep _ [] (f [])) by (rewrite map_length; auto). rewrite map_nth. unfold f.
    rewrite (map2_nth _ _ _ j (nzero : B64) (nzero : B64)) by (rewrite ?map2_length, ?map_length, ?Lr; lia).
    rewrite (map2_nth _ _ _ j (nzero : B64) (nzero : B64)) by (rewrite ?map2_length, ?map_length, ?Lr; lia).
    rewrite (nth_indep (map (scp a b) mm) _ (scp a b (nzero, nzero))) by (rewrite map_length; lia). rewrite (nth_indep (map (csp a b) mm) _ (csp a b (nzero, nzero))) by (rewrite map_length; lia).
    rewrite !map_nth. reflexivity.
Qed.

(** ** Range *)
Lemma f64_max_big : bpow radix2 1000 <= f64_max_R.
Proof.
  unfold f64_max_R. replace 1000%Z with (29 + 971)%Z by reflexivity. rewrite bpow_plus.
  rewrite (IZR_Zpower radix2) by lia. apply Rmult_le_compat_r; [apply bpow_ge_0|]. apply IZR_le. cbv. discriminate.
Qed.
Lemma columns64 (smin smax : B64) (m : matrix B64) : is_finite smin = true -> is_finite smax = true -> B2R smin <= B2R smax ->
  mwf m -> (0 < nrows m)%nat -> scalable (B2R smin) (B2R smax) m -> (forall j, (j < mcols m)%nat -> varies (real_mat m) j) ->
  exists mm, minmax_fit smin smax m = Ok (fitted64 smin smax mm) /\ length mm = mcols m /\
    forall j, (j < mcols m)%nat -> let p := nth j mm (nzero, nzero) in
      finpair p /\ is_col_min (real_mat m) j (B2R (fst p)) /\ is_col_max (real_mat m) j (B2R (snd p)) /\
      B2R (fst p) < B2R (snd p) /\ Rabs (B2R (fst p)) <= bpow radix2 1000 /\ Rabs (B2R (snd p)) <= bpow radix2 1000.
Proof.
  intros FA FB AB W N0 (SA & SB & SC & SS) V.
  assert (FR : Forall finite_vec (mrows m)) by (apply row_finite; auto; intros i j Hi Hj; apply SC; auto).
  destruct (mm_real m W FR) as (mm & E & G & R & L).
  pose proof (real_mat_wf m W) as W'.
  assert (IR : in_f64_range (real_mat m)).
  { intros i j Hi Hj. rewrite real_mat_rows in Hi. rewrite cell_real. destruct (SC i j Hi Hj) as [_ Q]. pose proof f64_max_big. apply Rabs_le_inv in Q. lra. }
  assert (EX : forall j, (j < mcols m)%nat -> let p := nth j mm (nzero, nzero) in
    finpair p /\ is_col_min (real_mat m) j (B2R (fst p)) /\ is_col_max (real_mat m) j (B2R (snd p))).
  { intros j Hj p. split; [apply (proj1 (Forall_forall _ _) G); apply nth_In; lia|].
    destruct (mm_of_extremes (real_mat m) j W' IR ltac:(rewrite real_mat_rows; auto) Hj) as [P1 P2]. rewrite <- R in P1, P2.
    change (0, 0) with (rp (nzero, nzero)) in P1, P2. rewrite map_nth in P1, P2. auto. }
  assert (BD : forall j, (j < mcols m)%nat -> let p := nth j mm (nzero, nzero) in
    B2R (fst p) < B2R (snd p) /\ Rabs (B2R (fst p)) <= bpow radix2 1000 /\ Rabs (B2R (snd p)) <= bpow radix2 1000).
  { intros j Hj p. destruct (EX j Hj) as (_ & P1 & P2). fold p in P1, P2. split; [apply (varies_iff _ _ _ _ P1 P2); auto|].
    destruct P1 as [(i1 & Hi1 & Q1) _]. destruct P2 as [(i2 & Hi2 & Q2) _]. rewrite real_mat_rows in Hi1, Hi2. rewrite cell_real in Q1, Q2.
    rewrite <- Q1, <- Q2. split; apply SC; auto. }
  exists mm. split; [|split; auto].
  - apply fit64; auto. apply Forall_forall. intros p Hp. apply (In_nth _ _ (nzero, nzero)) in Hp. destruct Hp as (j & Hj & <-). rewrite L in Hj.
    destruct (EX j Hj) as ((F1 & F2) & P1 & P2). destruct (BD j Hj) as (Q1 & Q2 & Q3).
    exact (proj1 (scale_facts smin smax _ _ FA FB F1 F2 AB Q1 SA SB Q2 Q3 (SS j _ _ Hj P1 P2))).
  - intros j Hj p. destruct (EX j Hj) as (F1 & P1 & P2). destruct (BD j Hj) as (Q1 & Q2 & Q3). auto 10.
Qed.
Lemma minmax_b64 (smin smax : B64) (m : matrix B64) : is_finite smin = true -> is_finite smax = true -> B2R smin <= B2R smax ->
  mwf m -> (0 < nrows m)%nat -> scalable (B2R smin) (B2R smax) m -> (forall j, (j < mcols m)%nat -> varies (real_mat m) j) ->
  exists sc out, minmax_fit smin smax m = Ok sc /\ minmax_transform sc m = Ok out /\ mwf out /\ nrows out = nrows m /\ mcols out = mcols m /\
    forall i j lo hi, (i < nrows m)%nat -> (j < mcols m)%nat -> is_col_min (real_mat m) j lo -> is_col_max (real_mat m) j hi ->
      is_finite (cell out i j) = true /\
      Rabs (B2R (cell out i j) - stretch (B2R smin) (B2R smax) lo hi (B2R (cell m i j))) <= stretch_slack (B2R smin) (B2R smax) lo hi /\
      B2R smin - stretch_slack (B2R smin) (B2R smax) lo hi <= B2R (cell out i j) <= B2R smax + stretch_slack (B2R smin) (B2R smax) lo hi.
Proof.
  intros FA FB AB W N0 SCA V. destruct (columns64 _ _ _ FA FB AB W N0 SCA V) as (mm & HF & L & EX). destruct SCA as (SA & SB & SC & SS).
  exists (fitted64 smin smax mm).
  assert (T : exists out, minmax_transform (fitted64 smin smax mm) m = Ok out).
  { unfold minmax_transform, fitted64; cbn [scale_factors]. rewrite map_length, L, Nat.eqb_refl. cbn [negb]. eexists; reflexivity. }
  destruct T as [out T]. exists out. destruct (transform64 _ _ _ _ _ T) as (_ & R1 & R2 & R3 & R4).
  split; [exact HF|]. split; auto. split; auto. split; auto. split; auto.
  intros i j lo hi Hi Hj Hlo Hhi. rewrite (R4 i j W Hi Hj). set (p := nth j mm (nzero, nzero)).
  destruct (EX j Hj) as ((F1 & F2) & P1 & P2 & Q1 & Q2 & Q3). fold p in F1, F2, P1, P2, Q1, Q2, Q3.
  rewrite (is_min_unique _ _ _ _ Hlo P1), (is_max_unique _ _ _ _ Hhi P2).
  assert (BX : B2R (fst p) <= B2R (cell m i j) <= B2R (snd p)).
  { rewrite <- cell_real. split; [apply P1|apply P2]; rewrite real_mat_rows; auto. }
  destruct (cell_ok smin smax (fst p) (snd p) FA FB F1 F2 AB Q1 SA SB Q2 Q3 (SS j _ _ Hj P1 P2) (cell m i j) (proj1 (SC i j Hi Hj)) BX) as [C1 C2].
  split; auto. split; auto. unfold out64 in C2. change (sc64 smin smax (fst p) (snd p)) with (scp smin smax p) in C2. change (cst64 smin smax (fst p) (snd p)) with (csp smin smax p) in C2.
  set (o := B2R (nadd (nmul (cell m i j) (scp smin smax p)) (csp smin smax p))) in *. clearbody o.
  apply Rabs_le_inv in C2.
  assert (B2R smin <= stretch (B2R smin) (B2R smax) (B2R (fst p)) (B2R (snd p)) (B2R (cell m i j)) <= B2R smax).
  { unfold stretch. set (D := B2R (snd p) - B2R (fst p)) in *. assert (0 < D) by (unfold D; lra).
    assert (S0 : 0 <= (B2R smax - B2R smin) / D) by (apply Rmult_le_pos; [lra|left; apply Rinv_0_lt_compat; auto]).
    assert (D * ((B2R smax - B2R smin) / D) = B2R smax - B2R smin) by (field; lra).
    assert (0 <= (B2R (cell m i j) - B2R (fst p)) * ((B2R smax - B2R smin) / D)) by (apply Rmult_le_pos; lra).
    assert ((B2R (cell m i j) - B2R (fst p)) * ((B2R smax - B2R smin) / D) <= D * ((B2R smax - B2R smin) / D)) by (apply Rmult_le_compat_r; auto; unfold D; lra).
    lra. }
  lra.
Qed.

(** ** Order *)
Definition ordpair (p : B64 * B64) : Prop := finpair p /\ (p = (nmaxv, nopp nmaxv) \/ B2R (fst p) <= B2R (snd p)).
Lemma step_ord (x a b : B64) : is_finite x = true -> finpair (a, b) -> ordpair (if nltb x a then x else a, if nltb b x then x else b).
Proof.
  intros Fx [Fa Fb]. cbn [fst snd] in *. destruct (step_real x a b Fx Fa Fb) as [P Q]. split; auto. right.
  pose proof (f_equal fst Q) as Q1. pose proof (f_equal snd Q) as Q2. unfold rp, rmm in Q1, Q2; cbn [fst snd] in Q1, Q2 |- *. rewrite Q1, Q2.
  destruct (Rlt_dec (B2R x) (B2R a)), (Rlt_dec (B2R b) (B2R x)); lra.
Qed.
Lemma row_ord row : forall mm mm', minmax_row row mm = Ok mm' -> Forall ordpair mm -> Forall ordpair mm'.
Proof.
  induction row as [|x row IH]; intros [|[a b] mm] mm' H Fm; cbn [minmax_row] in H; try (inversion H; subst; auto; fail).
  change (nfinite x) with (is_finite x) in H. destruct (is_finite x) eqn:Fx; cbn [negb] in H; [|discriminate H].
  destruct (minmax_row row mm) as [r| |] eqn:Er; try discriminate H. cbn [rbind] in H. inversion H. inversion Fm as [|? ? [Fa _] Fm']; subst.
  constructor; [apply step_ord; auto|]. apply (IH mm); auto.
Qed.
Lemma rows_ord rows : forall mm mm', minmax_rows rows mm = Ok mm' -> Forall ordpair mm -> Forall ordpair mm'.
Proof.
  induction rows as [|r rows IH]; intros mm mm' H Fm; cbn [minmax_rows] in H.
  - inversion H; subst; auto.
  - destruct (minmax_row r mm) as [m1| |] eqn:E; try discriminate H. cbn [rbind] in H. apply (IH m1); auto. apply (row_ord r mm); auto.
Qed.
Lemma scale_nonneg_any (a b : B64) p : B2R a <= B2R b -> ordpair p -> is_finite (scp a b p) = true -> 0 <= B2R (scp a b p).
Proof.
  intros AB [[F1 F2] O] F. unfold scp, sc64 in *. destruct (ndiv_finite_cases _ _ F) as (Fn & [[Fd Nd]|[Fd Z]]); [|rewrite Z; lra].
  destruct O as [->|O]; [vm_compute in Fd; discriminate Fd|].
  destruct (sub_err _ _ Fn) as (e1 & E1 & N1). destruct (sub_err _ _ Fd) as (e2 & E2 & N2). pose proof u_small. apply Rabs_le_inv in E1. apply Rabs_le_inv in E2.
  rewrite (finite_rnd _ _ (div_rounds _ _ Fn Fd Nd) F). rewrite <- rnd64_0. apply rnd64_le.
  assert (0 <= B2R (nsub (snd p) (fst p))) by (rewrite N2; apply Rmult_le_pos; lra).
  apply Rmult_le_pos; [rewrite N1; apply Rmult_le_pos; lra|]. left. apply Rinv_0_lt_compat. lra.
Qed.
Lemma minmax_order_b64 (smin smax : B64) (m n out : matrix B64) sc : B2R smin <= B2R smax -> minmax_fit smin smax m = Ok sc ->
  mwf n -> minmax_transform sc n = Ok out -> forall i i' j, (i < nrows n)%nat -> (i' < nrows n)%nat -> (j < mcols n)%nat ->
  is_finite (cell out i j) = true -> is_finite (cell out i' j) = true ->
  B2R (cell n i j) <= B2R (cell n i' j) -> B2R (cell out i j) <= B2R (cell out i' j).
Proof.
  intros AB Hf W T i i' j Hi Hi' Hj F1 F2 L. destruct (fit64_inv _ _ _ _ Hf) as (mm & E & -> & FS).
  destruct (transform64 _ _ _ _ _ T) as (Lm & _ & _ & _ & C). rewrite C in F1, F2 |- * by auto. rewrite (C i' j) in * by auto.
  assert (In (nth j mm (nzero, nzero)) mm) by (apply nth_In; lia).
  apply lin_mono; auto. apply scale_nonneg_any; auto; [|exact (proj1 (Forall_forall _ _) FS _ H)].
  refine (proj1 (Forall_forall _ _) _ _ H). apply (rows_ord _ _ _ E). apply Forall_forall. intros p Hp. apply repeat_spec in Hp. subst p. split; [apply max_pair|auto].
Qed.

(** ** There and back *)
Lemma inv64 a b mm m : length mm = mcols m -> mwf m -> exists out, minmax_inv (fitted64 a b mm) m = Ok out /\ nrows out = nrows m /\ mcols out = mcols m /\
  forall i j, (i < nrows m)%nat -> (j < mcols m)%nat ->
    cell out i j = ndiv (nsub (cell m i j) (csp a b (nth j mm (nzero, nzero)))) (scp a b (nth j mm (nzero, nzero))).
Proof.
  intros L W. unfold minmax_inv, fitted64; cbn [scale_factors const_factors]. rewrite map_length, L, Nat.eqb_refl. cbn [negb].
  eexists. split; [reflexivity|]. split; [unfold nrows; cbn [mrows]; apply map_length|]. split; auto.
  intros i j Hi Hj. unfold cell; cbn [mrows]. unfold nrows in Hi.
  pose proof (proj1 (Forall_forall _ _) W (nth i (mrows m) []) (nth_In _ _ Hi)) as Lr.
  set (f := fun row : list B64 => map2 ndiv (map2 nsub row (map (csp a b) mm)) (map (scp a b) mm)).
  rewrite (nth_indep _ [] (f [])) by (rewrite map_length; auto). rewrite map_nth. unfold f.
  rewrite (map2_nth _ _ _ j (nzero : B64) (nzero : B64)) by (rewrite ?map2_length, ?map_length, ?Lr; lia).
  rewrite (map2_nth _ _ _ j (nzero : B64) (nzero : B64)) by (rewrite ?map2_length, ?map_length, ?Lr; lia).
  rewrite (nth_indep (map (scp a b) mm) _ (scp a b (nzero, nzero))) by (rewrite map_length; lia). rewrite (nth_indep (map (csp a b) mm) _ (csp a b (nzero, nzero))) by (rewrite map_length; lia).
  rewrite !map_nth. reflexivity.
Qed.
Lemma minmax_back_b64 (smin smax : B64) (m : matrix B64) : is_finite smin = true -> is_finite smax = true -> B2R smin <= B2R smax ->
  mwf m -> (0 < nrows m)%nat -> scalable (B2R smin) (B2R smax) m -> recoverable (B2R smin) (B2R smax) m -> (forall j, (j < mcols m)%nat -> varies (real_mat m) j) ->
  exists sc out back, minmax_fit smin smax m = Ok sc /\ minmax_transform sc m = Ok out /\ minmax_inv sc out = Ok back /\ nrows back = nrows m /\ mcols back = mcols m /\
    forall i j lo hi, (i < nrows m)%nat -> (j < mcols m)%nat -> is_col_min (real_mat m) j lo -> is_col_max (real_mat m) j hi ->
      is_finite (cell back i j) = true /\ Rabs (B2R (cell back i j) - B2R (cell m i j)) <= back_slack (B2R smin) (B2R smax) lo hi.
Proof.
  intros FA FB AB W N0 SCA REC V. destruct (columns64 _ _ _ FA FB AB W N0 SCA V) as (mm & HF & L & EX). destruct SCA as (SA & SB & SC & SS).
  exists (fitted64 smin smax mm).
  assert (T : exists out, minmax_transform (fitted64 smin smax mm) m = Ok out).
  { unfold minmax_transform, fitted64; cbn [scale_factors]. rewrite map_length, L, Nat.eqb_refl. cbn [negb]. eexists; reflexivity. }
  destruct T as [out T]. exists out. destruct (transform64 _ _ _ _ _ T) as (_ & R1 & R2 & R3 & R4).
  destruct (inv64 smin smax mm out ltac:(congruence) (R3 W)) as (back & B1 & B2 & B3 & B4). exists back.
  split; auto. split; auto. split; auto. split; [congruence|]. split; [congruence|].
  intros i j lo hi Hi Hj Hlo Hhi. rewrite B4 by congruence. rewrite (R4 i j W Hi Hj). set (p := nth j mm (nzero, nzero)).
  destruct (EX j Hj) as ((F1 & F2) & P1 & P2 & Q1 & Q2 & Q3). fold p in F1, F2, P1, P2, Q1, Q2, Q3.
  rewrite (is_min_unique _ _ _ _ Hlo P1), (is_max_unique _ _ _ _ Hhi P2). destruct (REC j _ _ Hj P1 P2) as [G1 G2].
  assert (BX : B2R (fst p) <= B2R (cell m i j) <= B2R (snd p)).
  { rewrite <- cell_real. split; [apply P1|apply P2]; rewrite real_mat_rows; auto. }
  exact (back_ok smin smax (fst p) (snd p) FA FB F1 F2 AB Q1 SA SB Q2 Q3 (SS j _ _ Hj P1 P2) (cell m i j) (proj1 (SC i j Hi Hj)) BX G1 G2).
Qed.

(** ** Standardizer: order *)
Lemma sqrt_nonneg64 (y : B64) : 0 <= B2R (nsqrt y).
Proof.
  destruct (Bsqrt_correct 53 1024 prec64 emax64 mode_NE y) as (E & _).
  change (nsqrt y) with (Bsqrt mode_NE y). rewrite E. 
  change (round radix2 (SpecFloat.fexp 53 1024) (round_mode mode_NE) (sqrt (B2R y))) with (rnd64 (sqrt (B2R y))).
  rewrite <- rnd64_0. apply rnd64_le. apply R_sqrt.sqrt_pos.
Qed.
Lemma std_mono (mu sd y c a b : B64) : 0 <= B2R sd ->
  let f x := nadd (ndiv (nmul (nsub x mu) sd) (nsqrt y)) c in
  is_finite (f a) = true -> is_finite (f b) = true -> B2R a <= B2R b -> B2R (f a) <= B2R (f b).
Proof.
  intros S0 f F1 F2 L. unfold f in *. destruct (nadd_finite_inv _ _ F1) as [G1 Fc]. destruct (nadd_finite_inv _ _ F2) as [G2 _].
  rewrite (finite_rnd _ _ (add_rounds _ _ G1 Fc) F1), (finite_rnd _ _ (add_rounds _ _ G2 Fc) F2).
  apply rnd64_le. apply Rplus_le_compat_r.
  destruct (ndiv_finite_cases _ _ G1) as (K1 & [[D1 N1]|[D1 Z1]]), (ndiv_finite_cases _ _ G2) as (K2 & [[D2 N2]|[D2 Z2]]); try congruence; [|rewrite Z1, Z2; lra].
  rewrite (finite_rnd _ _ (div_rounds _ _ K1 D1 N1) G1), (finite_rnd _ _ (div_rounds _ _ K2 D1 N1) G2). apply rnd64_le.
  pose proof (sqrt_nonneg64 y) as Y. apply Rmult_le_compat_r; [left; apply Rinv_0_lt_compat; lra|].
  destruct (nmul_finite_inv _ _ K1) as [J1 Fs]. destruct (nmul_finite_inv _ _ K2) as [J2 _].
  rewrite (finite_rnd _ _ (mul_rounds _ _ J1 Fs) K1), (finite_rnd _ _ (mul_rounds _ _ J2 Fs) K2). apply rnd64_le. apply Rmult_le_compat_r; auto.
  destruct (nsub_finite_inv _ _ J1) as [Fa Fm]. destruct (nsub_finite_inv _ _ J2) as [Fb _].
  rewrite (finite_rnd _ _ (sub_rounds _ _ Fa Fm) J1), (finite_rnd _ _ (sub_rounds _ _ Fb Fm) J2). apply rnd64_le. lra.
Qed.
Lemma std_order_b64 (smean sstd : B64) (m n out : matrix B64) st : 0 <= B2R sstd -> standardizer_fit smean sstd m = Ok st ->
  mwf n -> standardizer_transform st n = Ok out -> forall i i' j, (i < nrows n)%nat -> (i' < nrows n)%nat -> (j < mcols n)%nat ->
  is_finite (cell out i j) = true -> is_finite (cell out i' j) = true ->
  B2R (cell n i j) <= B2R (cell n i' j) -> B2R (cell out i j) <= B2R (cell out i' j).
Proof.
  intros S0 Hf W T i i' j Hi Hi' Hj. unfold standardizer_fit in Hf. destruct (nrows m <=? 1)%nat; [discriminate|].
  destruct (existsb _ _); [discriminate|]. inversion Hf; subst st; clear Hf. unfold standardizer_transform in T; cbn [std_means std_variances std_mean std_stdev] in T.
  destruct (length (col_mean m) =? mcols n)%nat eqn:L; cbn [negb] in T; [|discriminate]. apply Nat.eqb_eq in L. inversion T; subst out; clear T.
  assert (Lv : length (col_var m) = mcols n) by (rewrite <- L; unfold col_var, col_mean; rewrite !map_length; reflexivity).
  set (f := fun row : list B64 => map2 (fun x y => nadd (ndiv (nmul x sstd) (nsqrt y)) smean) (map2 nsub row (col_mean m)) (col_var m)).
  assert (C : forall k, (k < nrows n)%nat -> cell (Mat (map f (mrows n)) (mcols n)) k j =
     nadd (ndiv (nmul (nsub (cell n k j) (nth j (col_mean m) nzero)) sstd) (nsqrt (nth j (col_var m) nzero))) smean).
  { intros k Hk. unfold cell; cbn [mrows]. unfold nrows in Hk. pose proof (proj1 (Forall_forall _ _) W (nth k (mrows n) []) (nth_In _ _ Hk)) as Lr.
    rewrite (nth_indep _ [] (f [])) by (rewrite map_length; auto). rewrite map_nth. unfold f.
    rewrite (map2_nth _ _ _ j (nzero : B64) (nzero : B64)) by (rewrite ?map2_length, ?Lr; lia).
    rewrite (map2_nth _ _ _ j (nzero : B64) (nzero : B64)) by (rewrite ?Lr; lia). reflexivity. }
  rewrite !C by auto. intros F1 F2 Le. exact (std_mono _ _ _ _ _ _ S0 F1 F2 Le).
Qed.
