(** Rounding errors of one cell of the min-max scaler and of the standardizer. *)
From Coq Require Import List Arith Bool Reals ZArith Lia Lra.
From Flocq Require Import Core BinarySingleNaN Relative Plus_error.
From Verif Require Import Base Num NumF B64Lemmas Linalg LinalgR Spec_B64 B64Err.
Import ListNotations.
Local Open Scope R_scope.

Lemma u_small : 0 < u64 <= / 1024.
Proof. split; [apply u64_pos|]. replace (/ 1024) with (bpow radix2 (-10)) by (cbn; lra). apply bpow_le. lia. Qed.

(** Division. *)
Lemma div_rounds (x y : B64) : is_finite x = true -> is_finite y = true -> B2R y <> 0 -> rounds_to (ndiv x y) (B2R x / B2R y).
Proof.
  intros Fx Fy Hy. pose proof (Bdiv_correct 53 1024 prec64 emax64 mode_NE x y Hy) as Q. fold top64 in Q.
  change (round radix2 (SpecFloat.fexp 53 1024) (round_mode mode_NE) (B2R x / B2R y)) with (rnd64 (B2R x / B2R y)) in Q.
  change (ndiv x y) with (Bdiv mode_NE x y). destruct (Rlt_bool_spec (Rabs (rnd64 (B2R x / B2R y))) top64) as [L|L].
  - destruct Q as (E & F & _). rewrite Fx in F. split; [apply finite_nan; auto|]. rewrite phi_finite by auto. rewrite E. symmetry. apply fr_in; auto.
  - apply phi_overflow in Q. destruct Q as [Q1 Q2]. split; auto. rewrite Q2.
    assert (NL : ~ Rabs (rnd64 (B2R x / B2R y)) < top64) by lra.
    destruct (Bsign x) eqn:Sx, (Bsign y) eqn:Sy; cbn [xorb].
    + symmetry. apply fr_pos_over; auto. apply Bsign_neg in Sx; auto. apply Bsign_neg in Sy; auto.
      replace (B2R x / B2R y) with ((- B2R x) / (- B2R y)) by (field; auto). apply Rmult_le_pos; [lra|]. left. apply Rinv_0_lt_compat. lra.
    + symmetry. apply fr_neg_over; auto. apply Bsign_neg in Sx; auto. apply Bsign_pos in Sy; auto.
      replace (B2R x / B2R y) with (- ((- B2R x) / B2R y)) by (field; auto). assert (0 <= - B2R x / B2R y); [|lra]. apply Rmult_le_pos; [lra|]. left. apply Rinv_0_lt_compat. lra.
    + symmetry. apply fr_neg_over; auto. apply Bsign_pos in Sx; auto. apply Bsign_neg in Sy; auto.
      replace (B2R x / B2R y) with (- (B2R x / (- B2R y))) by (field; auto). assert (0 <= B2R x / - B2R y); [|lra]. apply Rmult_le_pos; [lra|]. left. apply Rinv_0_lt_compat. lra.
    + symmetry. apply fr_pos_over; auto. apply Bsign_pos in Sx; auto. apply Bsign_pos in Sy; auto.
      apply Rmult_le_pos; [lra|]. left. apply Rinv_0_lt_compat. lra.
Qed.
Lemma ndiv_finite_cases (x y : B64) : is_finite (ndiv x y) = true ->
  is_finite x = true /\ (is_finite y = true /\ B2R y <> 0 \/ is_finite y = false /\ B2R (ndiv x y) = 0).
Proof.
  destruct x as [s|s| |s m e b], y as [s'|s'| |s' m' e' b']; cbn; try discriminate; intros H; split; auto;
    try (right; split; reflexivity);
    left; split; auto; intros Z; apply eq_0_F2R in Z; destruct s'; discriminate.
Qed.
Lemma sub_err (x y : B64) : is_finite (nsub x y) = true -> exists e, Rabs e <= u64 /\ B2R (nsub x y) = (B2R x - B2R y) * (1 + e).
Proof.
  intros F. destruct (nsub_finite_inv _ _ F) as [Fx Fy]. rewrite (finite_rnd _ _ (sub_rounds x y Fx Fy) F).
  pose proof (rnd_err_add x (Bopp y)) as Q. rewrite B2R_Bopp in Q. fold (B2R x - B2R y) in Q.
  destruct (Req_dec (B2R x - B2R y) 0) as [Z|Z].
  - exists 0. rewrite Rabs_R0. split; [pose proof u64_pos; lra|]. rewrite Z, rnd64_0. ring.
  - exists ((rnd64 (B2R x - B2R y) - (B2R x - B2R y)) / (B2R x - B2R y)). split; [|field; auto].
    unfold Rdiv. rewrite Rabs_mult, Rabs_inv. apply Rmult_le_reg_r with (Rabs (B2R x - B2R y)); [apply Rabs_pos_lt; auto|].
    rewrite Rmult_assoc, Rinv_l, Rmult_1_r by (apply Rabs_no_R0; auto). auto.
Qed.
Lemma add_err (x y : B64) : is_finite (nadd x y) = true -> exists e, Rabs e <= u64 /\ B2R (nadd x y) = (B2R x + B2R y) * (1 + e).
Proof.
  intros F. destruct (nadd_finite_inv _ _ F) as [Fx Fy]. rewrite (finite_rnd _ _ (add_rounds x y Fx Fy) F).
  pose proof (rnd_err_add x y) as Q. destruct (Req_dec (B2R x + B2R y) 0) as [Z|Z].
  - exists 0. rewrite Rabs_R0. split; [pose proof u64_pos; lra|]. rewrite Z, rnd64_0. ring.
  - exists ((rnd64 (B2R x + B2R y) - (B2R x + B2R y)) / (B2R x + B2R y)). split; [|field; auto].
    unfold Rdiv. rewrite Rabs_mult, Rabs_inv. apply Rmult_le_reg_r with (Rabs (B2R x + B2R y)); [apply Rabs_pos_lt; auto|].
    rewrite Rmult_assoc, Rinv_l, Rmult_1_r by (apply Rabs_no_R0; auto). auto.
Qed.
Lemma rnd_split v : exists e h, Rabs e <= u64 /\ Rabs h <= h64 /\ rnd64 v = v * (1 + e) + h.
Proof.
  destruct (relative_error_N_FLT'_ex radix2 (-1074) 53 ltac:(lia) (fun z => negb (Z.even z)) v) as (e & h & He & Hh & _ & E).
  change (round radix2 (FLT_exp (-1074) 53) (Znearest (fun z => negb (Z.even z))) v) with (rnd64 v) in E.
  rewrite half_emin in Hh. rewrite u_ro_64 in He. assert (P := u64_pos). exists e, h. repeat split; auto.
  apply Rle_trans with (1 := He). apply Rmult_le_reg_r with (1 + u64); [lra|]. unfold Rdiv. rewrite Rmult_assoc, Rinv_l by lra. nra.
Qed.
Lemma mul_err (x y : B64) : is_finite (nmul x y) = true ->
  exists e h, Rabs e <= u64 /\ Rabs h <= h64 /\ B2R (nmul x y) = B2R x * B2R y * (1 + e) + h.
Proof.
  intros F. destruct (nmul_finite_inv _ _ F) as [Fx Fy]. rewrite (finite_rnd _ _ (mul_rounds x y Fx Fy) F). apply rnd_split.
Qed.
Lemma div_err (x y : B64) : is_finite (ndiv x y) = true -> is_finite y = true ->
  B2R y <> 0 /\ exists e h, Rabs e <= u64 /\ Rabs h <= h64 /\ B2R (ndiv x y) = B2R x / B2R y * (1 + e) + h.
Proof.
  intros F Fy. destruct (ndiv_finite_cases _ _ F) as (Fx & [[_ N]|[N _]]); [|congruence]. split; auto.
  rewrite (finite_rnd _ _ (div_rounds x y Fx Fy N) F). apply rnd_split.
Qed.

(** ** Real-number bounds *)
Lemma amul a b A B : Rabs a <= A -> Rabs b <= B -> Rabs (a * b) <= A * B.
Proof. intros Ha Hb. rewrite Rabs_mult. apply Rmult_le_compat; auto; apply Rabs_pos. Qed.
Lemma aadd a b A B : Rabs a <= A -> Rabs b <= B -> Rabs (a + b) <= A + B.
Proof. intros Ha Hb. apply Rle_trans with (1 := Rabs_triang _ _). lra. Qed.
Lemma asub a b A B : Rabs a <= A -> Rabs b <= B -> Rabs (a - b) <= A + B.
Proof. intros Ha Hb. unfold Rminus. apply aadd; auto. rewrite Rabs_Ropp. auto. Qed.
Lemma a1 e : Rabs e <= u64 -> Rabs (1 + e) <= 1025 / 1024.
Proof. intros H. pose proof u_small. apply Rle_trans with (1 := Rabs_triang _ _). rewrite Rabs_R1. lra. Qed.

Lemma ratio_err e1 e2 e3 : Rabs e1 <= u64 -> Rabs e2 <= u64 -> Rabs e3 <= u64 -> Rabs ((1 + e1) * (1 + e3) / (1 + e2) - 1) <= 4 * u64.
Proof.
  intros H1 H2 H3. pose proof u_small. set (u := u64) in *.
  apply Rabs_le_inv in H1. apply Rabs_le_inv in H2. apply Rabs_le_inv in H3.
  replace ((1 + e1) * (1 + e3) / (1 + e2) - 1) with (((1 + e1) * (1 + e3) - (1 + e2)) / (1 + e2)) by (field; lra).
  apply Rabs_le. split.
  - apply Rmult_le_reg_r with (1 + e2); [lra|]. unfold Rdiv. rewrite Rmult_assoc, Rinv_l, Rmult_1_r by lra. nra.
  - apply Rmult_le_reg_r with (1 + e2); [lra|]. unfold Rdiv. rewrite Rmult_assoc, Rinv_l, Rmult_1_r by lra. nra.
Qed.

Section Cell.
  Variables (A B lo hi x : R).
  Hypotheses (AB : A <= B) (LH : lo < hi) (X : lo <= x <= hi).
  Let M := Rmax (Rabs lo) (Rabs hi).
  Let S := (B - A) / (hi - lo).
  Let W := Rabs A + Rabs B.
  Variables (e1 e2 e3 e4 e5 e6 e7 h3 h4 h5 : R).
  Hypotheses (E1 : Rabs e1 <= u64) (E2 : Rabs e2 <= u64) (E3 : Rabs e3 <= u64) (E4 : Rabs e4 <= u64) (E5 : Rabs e5 <= u64)
    (E6 : Rabs e6 <= u64) (E7 : Rabs e7 <= u64) (H3 : Rabs h3 <= h64) (H4 : Rabs h4 <= h64) (H5 : Rabs h5 <= h64).
  Variables (s p q c out : R).
  Hypothesis (Hs : s = (B - A) * (1 + e1) / ((hi - lo) * (1 + e2)) * (1 + e3) + h3).
  Hypothesis (Hp : p = hi * s * (1 + e5) + h5) (Hq : q = x * s * (1 + e4) + h4) (Hc : c = (B - p) * (1 + e6)) (Ho : out = (q + c) * (1 + e7)).

  Lemma cell_M : Rabs x <= M /\ Rabs hi <= M /\ Rabs (x - hi) <= hi - lo /\ hi - lo <= 2 * M /\ 0 <= M.
  Proof.
    assert (P1 : Rabs hi <= M) by apply Rmax_r. assert (P2 : Rabs lo <= M) by apply Rmax_l.
    pose proof (Rabs_pos lo). apply Rabs_le_inv in P1. apply Rabs_le_inv in P2.
    repeat split; try (apply Rabs_le; lra); lra.
  Qed.
  Lemma cell_S : 0 <= S /\ (hi - lo) * S = B - A /\ B - A <= W.
  Proof.
    split; [apply Rmult_le_pos; [lra|]; left; apply Rinv_0_lt_compat; lra|]. split; [unfold S; field; lra|].
    unfold W. pose proof (Rle_abs B). pose proof (Rle_abs (- A)). rewrite Rabs_Ropp in *. lra.
  Qed.
  Lemma cell_scale : Rabs (s - S) <= 4 * u64 * S + h64.
  Proof.
    pose proof u_small. destruct cell_S as (S0 & _). pose proof (ratio_err e1 e2 e3 E1 E2 E3) as T. apply Rabs_le_inv in E2 as E2'.
    replace (s - S) with (((1 + e1) * (1 + e3) / (1 + e2) - 1) * S + h3) by (rewrite Hs; unfold S; field; lra).
    apply aadd; auto. apply amul; auto. rewrite Rabs_right; lra.
  Qed.
  Lemma cell_scale_abs : Rabs s <= 1025 / 1024 * S + 4 * u64 * S + h64.
  Proof.
    pose proof u_small. destruct cell_S as (S0 & _). replace s with (S + (s - S)) by ring.
    pose proof cell_scale. pose proof (aadd S (s - S) S _ ltac:(rewrite Rabs_right; lra) cell_scale). lra.
  Qed.

  (** The distance of the result from the exact value. *)
  Lemma cell_error : Rabs (out - (A + (x - lo) * S)) <= 8 * u64 * (W + M * S) + 4 * (M + 1) * h64.
  Proof.
    pose proof u_small as U. pose proof h64_pos as HH. destruct cell_S as (S0 & SD & DW). destruct cell_M as (Mx & Mhi & Mxh & Mlh & M0).
    pose proof cell_scale as C1. pose proof cell_scale_abs as C2.
    set (u := u64) in *. set (h := h64) in *.
    assert (U1 : u * S <= / 1024 * S) by (apply Rmult_le_compat_r; lra).
    assert (C3 : Rabs s <= 1030 / 1024 * S + h) by lra.
    pose proof (Rmult_le_pos M S M0 S0) as MS0.
    assert (Mh0 : 0 <= M * h) by (apply Rmult_le_pos; lra). assert (uMh : u * (M * h) <= / 1024 * (M * h)) by (apply Rmult_le_compat_r; lra).
    assert (uMS0 : 0 <= u * (M * S)) by (apply Rmult_le_pos; lra).
    assert (uh : u * h <= / 1024 * h) by (apply Rmult_le_compat_r; lra).
    assert (W0 : 0 <= W) by (unfold W; pose proof (Rabs_pos A); pose proof (Rabs_pos B); lra).
    assert (uW0 : 0 <= u * W) by (apply Rmult_le_pos; lra).
    (* the parts *)
    assert (K1 : Rabs ((x - hi) * (s - S)) <= 4 * (u * W) + 2 * (M * h)).
    { apply Rle_trans with (1 := amul _ _ _ _ Mxh C1).
      replace ((hi - lo) * (4 * u * S + h)) with (4 * u * ((hi - lo) * S) + (hi - lo) * h) by ring. rewrite SD.
      assert (4 * u * (B - A) <= 4 * u * W) by (apply Rmult_le_compat_l; lra).
      assert ((hi - lo) * h <= 2 * M * h) by (apply Rmult_le_compat_r; lra). lra. }
    assert (Ks : forall y e, Rabs y <= M -> Rabs e <= u -> Rabs (y * s * e) <= u * (1030 / 1024 * (M * S) + M * h)).
    { intros y e Hy He. apply Rle_trans with (1 := amul _ _ _ _ (amul _ _ _ _ Hy C3) He). lra. }
    pose proof (Ks x e4 Mx E4) as K2. pose proof (Ks hi e5 Mhi E5) as K3.
    assert (K4 : Rabs (q - p - (x - hi) * S) <= 4 * (u * W) + 2 * (M * h) + 2 * (u * (1030 / 1024 * (M * S) + M * h)) + 2 * h).
    { replace (q - p - (x - hi) * S) with ((x - hi) * (s - S) + (x * s * e4 - hi * s * e5) + (h4 - h5)) by (rewrite Hq, Hp; ring).
      pose proof (aadd _ _ _ _ (aadd _ _ _ _ K1 (asub _ _ _ _ K2 K3)) (asub _ _ _ _ H4 H5)). lra. }
    assert (K5 : Rabs p <= 1025 / 1024 * (1030 / 1024 * (M * S) + M * h) + h).
    { rewrite Hp. apply Rle_trans with (1 := aadd _ _ _ _ (amul _ _ _ _ (amul _ _ _ _ Mhi C3) (a1 e5 E5)) H5). lra. }
    assert (BW : Rabs B <= W) by (unfold W; pose proof (Rabs_pos A); lra).
    assert (K6 : Rabs ((B - p) * e6) <= u * (W + (1025 / 1024 * (1030 / 1024 * (M * S) + M * h) + h))).
    { apply Rle_trans with (1 := amul _ _ _ _ (asub _ _ _ _ BW K5) E6). lra. }
    set (T := A + (x - lo) * S) in *.
    assert (TE : T = B + (x - hi) * S) by (unfold T; lra).
    assert (K7 : Rabs (q + c - T) <= 5 * (u * W) + 4 * (u * (M * S)) + 3 * (M * h) + 3 * h).
    { replace (q + c - T) with (q - p - (x - hi) * S + (B - p) * e6) by (rewrite TE, Hc; ring).
      apply Rle_trans with (1 := aadd _ _ _ _ K4 K6). lra. }
    assert (KT : Rabs T <= W).
    { assert (A <= T) by (unfold T; assert (0 <= (x - lo) * S) by (apply Rmult_le_pos; lra); lra).
      assert (T <= B) by (rewrite TE; assert (0 <= (hi - x) * S) by (apply Rmult_le_pos; lra); lra).
      unfold W. pose proof (Rle_abs B). pose proof (Rle_abs (- A)). rewrite Rabs_Ropp in *. pose proof (Rabs_pos A). pose proof (Rabs_pos B). apply Rabs_le. lra. }
    replace (out - T) with ((q + c - T) * (1 + e7) + T * e7) by (rewrite Ho; ring).
    apply Rle_trans with (1 := aadd _ _ _ _ (amul _ _ _ _ K7 (a1 e7 E7)) (amul _ _ _ _ KT E7)). lra.
  Qed.
End Cell.

(** Undoing the scaling. *)
Section Back.
  Variables (S s M W x c q out r v : R).
  Hypotheses (S0 : 0 < S) (M0 : 0 <= M) (W0 : 0 <= W) (hS : h64 <= u64 * S) (Cs : Rabs (s - S) <= 4 * u64 * S + h64) (Mx : Rabs x <= M).
  Variables (e4 e7 e8 e9 h4 h9 : R).
  Hypotheses (E4 : Rabs e4 <= u64) (E7 : Rabs e7 <= u64) (E8 : Rabs e8 <= u64) (E9 : Rabs e9 <= u64) (H4 : Rabs h4 <= h64) (H9 : Rabs h9 <= h64).
  Hypotheses (Hq : q = x * s * (1 + e4) + h4) (Ho : out = (q + c) * (1 + e7)) (Hr : r = (out - c) * (1 + e8)) (Hv : v = r / s * (1 + e9) + h9).
  Hypothesis Bo : Rabs out <= W + (8 * u64 * (W + M * S) + 4 * (M + 1) * h64).

  Lemma back_scale : 1019 / 1024 * S <= s.
  Proof. pose proof u_small. assert (u64 * S <= / 1024 * S) by (apply Rmult_le_compat_r; lra). apply Rabs_le_inv in Cs. lra. Qed.
  Lemma three e f g : Rabs e <= u64 -> Rabs f <= u64 -> Rabs g <= u64 -> Rabs ((1 + e) * (1 + f) * (1 + g) - 1) <= 4 * u64.
  Proof.
    intros He Hf Hg. pose proof u_small as U.
    replace ((1 + e) * (1 + f) * (1 + g) - 1) with (g + (f + e * (1 + f)) * (1 + g)) by ring.
    pose proof (aadd _ _ _ _ Hg (amul _ _ _ _ (aadd _ _ _ _ Hf (amul _ _ _ _ He (a1 f Hf))) (a1 g Hg))). lra.
  Qed.
  Lemma two e f : Rabs e <= u64 -> Rabs f <= u64 -> Rabs ((1 + e) * (1 + f)) <= 1027 / 1024.
  Proof. intros He Hf. pose proof (amul _ _ _ _ (a1 e He) (a1 f Hf)). lra. Qed.

  (** The inner quotient stays moderate, and the result is close to [x]. *)
  Lemma back_error : Rabs (r / s) <= 2 * (M + W / S) + 4 * (h64 / S) /\ Rabs (v - x) <= 8 * u64 * (M + W / S) + 4 * (h64 / S) + h64.
  Proof.
    pose proof u_small as U. pose proof h64_pos as HH. pose proof back_scale as Bs.
    set (u := u64) in *. set (h := h64) in *. assert (s0 : 0 < s) by lra.
    set (w := W / S). set (k := h / S). assert (w0 : 0 <= w) by (apply Rmult_le_pos; [auto|left; apply Rinv_0_lt_compat; auto]).
    assert (k0 : 0 <= k) by (apply Rmult_le_pos; [lra|left; apply Rinv_0_lt_compat; auto]).
    assert (Ew : W = w * S) by (unfold w; field; lra). assert (Ek : h = k * S) by (unfold k; field; lra).
    assert (ku : k <= u). { apply Rmult_le_reg_r with S; auto. rewrite <- Ek. auto. }
    assert (Inv : forall z Z, Rabs z <= Z * S -> Rabs (z / s) <= 1030 / 1024 * Z).
    { intros z Z Hz. assert (Z0 : 0 <= Z) by (apply Rmult_le_reg_r with S; auto; pose proof (Rabs_pos z); lra).
      unfold Rdiv. rewrite Rabs_mult, (Rabs_right (/ s)) by (left; apply Rinv_0_lt_compat; auto).
      apply Rmult_le_reg_r with s; auto. rewrite Rmult_assoc, Rinv_l, Rmult_1_r by lra.
      apply Rle_trans with (1 := Hz). apply Rle_trans with (1030 / 1024 * Z * (1019 / 1024 * S)); [|apply Rmult_le_compat_l; lra].
      assert (0 <= Z * S) by (apply Rmult_le_pos; lra). lra. }
    set (K := q + c) in *.
    assert (BK : Rabs K <= 1026 / 1024 * Rabs out).
    { rewrite Ho, Rabs_mult. apply Rabs_le_inv in E7 as E7'. rewrite (Rabs_right (1 + e7)) by lra. pose proof (Rabs_pos K).
      assert (1023 / 1024 * Rabs K <= Rabs K * (1 + e7)) by (rewrite Rmult_comm; apply Rmult_le_compat_l; lra). lra. }
    assert (uw : u * w <= / 1024 * w) by (apply Rmult_le_compat_r; lra). assert (uM : u * M <= / 1024 * M) by (apply Rmult_le_compat_r; lra).
    assert (Mk : M * k <= M * u) by (apply Rmult_le_compat_l; lra).
    assert (BK2 : Rabs K <= (1038 / 1024 * w + 13 / 1024 * M + 5 * k) * S).
    { apply Rle_trans with (1 := BK). apply Rle_trans with (1026 / 1024 * (W + (8 * u * (W + M * S) + 4 * (M + 1) * h))); [lra|].
      rewrite Ew, Ek. replace (1026 / 1024 * (w * S + (8 * u * (w * S + M * S) + 4 * (M + 1) * (k * S)))) with ((1026 / 1024 * (w + (8 * (u * w + u * M) + 4 * (M * k) + 4 * k))) * S) by ring.
      apply Rmult_le_compat_r; lra. }
    assert (T1 : Rabs (h4 / s) <= 1030 / 1024 * k) by (apply Inv; lra).
    pose proof (Inv _ _ BK2) as T2.
    assert (T3 : Rabs (K / s * e7) <= u * (1050 / 1024 * w + 14 / 1024 * M + 6 * k)). { apply Rle_trans with (1 := amul _ _ _ _ T2 E7). apply Rle_trans with ((1030 / 1024 * (1038 / 1024 * w + 13 / 1024 * M + 5 * k)) * u); [lra|]. rewrite Rmult_comm. apply Rmult_le_compat_l; lra. }
    assert (Er : r / s = (x * (1 + e4) + (h4 / s + K / s * e7)) * (1 + e8)).
    { rewrite Hr, Ho. unfold K. rewrite Hq. field. lra. }
    assert (uk : u * k <= / 1024 * k) by (apply Rmult_le_compat_r; lra).
    split.
    - rewrite Er. apply Rle_trans with (1 := amul _ _ _ _ (aadd _ _ _ _ (amul _ _ _ _ Mx (a1 e4 E4)) (aadd _ _ _ _ T1 T3)) (a1 e8 E8)). lra.
    - replace (v - x) with (x * ((1 + e4) * (1 + e8) * (1 + e9) - 1) + (h4 / s + K / s * e7) * ((1 + e8) * (1 + e9)) + h9) by (rewrite Hv, Er; ring).
      apply Rle_trans with (1 := aadd _ _ _ _ (aadd _ _ _ _ (amul _ _ _ _ Mx (three _ _ _ E4 E8 E9)) (amul _ _ _ _ (aadd _ _ _ _ T1 T3) (two _ _ E8 E9))) H9).
      fold u. assert (0 <= u * w) by (apply Rmult_le_pos; lra). assert (0 <= u * M) by (apply Rmult_le_pos; lra). lra.
  Qed.
End Back.
