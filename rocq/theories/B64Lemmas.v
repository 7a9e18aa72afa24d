(** * Facts about binary64 operations, seen through an order embedding into the reals *)
From Coq Require Import Reals Bool ZArith Lra Lia.
From Flocq Require Import Core BinarySingleNaN.
From Verif Require Import Num NumF.
Local Open Scope R_scope.

Definition top64 : R := bpow radix2 1024.
(** Order embedding of the non-NaN numbers: infinities become [+-2^1024]. *)
Definition phi (x : B64) : R :=
  match x with
  | B754_infinity s => if s then - top64 else top64
  | _ => B2R x
  end.
Definition rnd64 (v : R) : R := round radix2 (SpecFloat.fexp 53 1024) ZnearestE v.
(** Rounding with overflow to the infinities. *)
Definition fr (v : R) : R := Rmax (- top64) (Rmin top64 (rnd64 v)).

Lemma top64_pos : 0 < top64. Proof. apply bpow_gt_0. Qed.

Lemma rnd64_le x y : x <= y -> rnd64 x <= rnd64 y.
Proof. intros. apply round_le; auto. apply fexp_correct. exact prec64. apply valid_rnd_N. Qed.
Lemma rnd64_0 : rnd64 0 = 0. Proof. apply round_0. apply valid_rnd_N. Qed.
Lemma rnd64_B2R (x : B64) : rnd64 (B2R x) = B2R x.
Proof. apply round_generic. apply valid_rnd_N. apply generic_format_B2R. Qed.
Lemma rnd64_top : rnd64 top64 = top64.
Proof.
  apply round_generic. apply valid_rnd_N. apply generic_format_bpow. unfold SpecFloat.fexp, SpecFloat.emin.
  apply Z.max_lub; lia.
Qed.

Lemma fr_le x y : x <= y -> fr x <= fr y.
Proof.
  intros H. apply rnd64_le in H. unfold fr, Rmax, Rmin. generalize top64_pos.
  intros. repeat destruct Rle_dec; lra.
Qed.
Lemma fr_bounds v : - top64 <= fr v <= top64.
Proof. unfold fr, Rmax, Rmin. generalize top64_pos. intros. repeat destruct Rle_dec; lra. Qed.
Lemma fr_0 : fr 0 = 0.
Proof. unfold fr. rewrite rnd64_0. generalize top64_pos. intros. rewrite Rmin_right, Rmax_right; lra. Qed.
Lemma fr_nonneg v : 0 <= v -> 0 <= fr v.
Proof. intros. rewrite <- fr_0. now apply fr_le. Qed.
Lemma fr_in v : Rabs (rnd64 v) < top64 -> fr v = rnd64 v.
Proof. intros H. apply Rabs_def2 in H. unfold fr. rewrite Rmin_right, Rmax_right; lra. Qed.
Lemma fr_top v : top64 <= v -> fr v = top64.
Proof.
  intros H. apply rnd64_le in H. rewrite rnd64_top in H. unfold fr. generalize top64_pos. intros.
  rewrite Rmin_left, Rmax_right; lra.
Qed.
Lemma fr_neg_over v : ~ Rabs (rnd64 v) < top64 -> v <= 0 -> fr v = - top64.
Proof.
  intros H V. apply rnd64_le in V. rewrite rnd64_0 in V. rewrite Rabs_left1 in H; auto.
  unfold fr. generalize top64_pos. intros. rewrite Rmin_right, Rmax_left; lra.
Qed.
Lemma fr_pos_over v : ~ Rabs (rnd64 v) < top64 -> 0 <= v -> fr v = top64.
Proof.
  intros H V. apply rnd64_le in V. rewrite rnd64_0 in V. rewrite Rabs_right in H; [|lra].
  unfold fr. generalize top64_pos. intros. rewrite Rmin_left, Rmax_right; lra.
Qed.
Lemma fr_phi (x : B64) : is_nan x = false -> fr (phi x) = phi x.
Proof.
  destruct x as [s|s| |s m e b]; intros H; try discriminate.
  - cbn. apply fr_0.
  - cbn [phi]. destruct s; [|apply fr_top; lra].
    assert (rnd64 (- top64) = - top64). { unfold rnd64. rewrite round_NE_opp. fold (rnd64 top64). now rewrite rnd64_top. }
    unfold fr. rewrite H0. generalize top64_pos; intros. rewrite Rmin_right, Rmax_left; lra.
  - cbn [phi]. rewrite fr_in; rewrite rnd64_B2R; auto. apply abs_B2R_lt_emax.
Qed.
Lemma phi_bounds (x : B64) : - top64 <= phi x <= top64.
Proof.
  generalize top64_pos; intro. destruct x as [s|s| |s m e b]; cbn [phi].
  - cbn; lra.
  - destruct s; lra.
  - cbn; lra.
  - pose proof (abs_B2R_lt_emax 53 1024 (B754_finite s m e b)) as Q. fold top64 in Q. apply Rabs_def2 in Q. lra.
Qed.
Lemma phi_finite (x : B64) : is_finite x = true -> phi x = B2R x.
Proof. destruct x; try discriminate; reflexivity. Qed.
Lemma finite_nan (x : B64) : is_finite x = true -> is_nan x = false.
Proof. destruct x; try discriminate; reflexivity. Qed.

Lemma phi_ltb (x y : B64) : is_nan x = false -> is_nan y = false ->
  b64_ltb x y = true <-> phi x < phi y.
Proof.
  intros Hx Hy. unfold b64_ltb.
  destruct (is_finite x) eqn:Fx, (is_finite y) eqn:Fy.
  - rewrite Bltb_correct, !phi_finite; auto. destruct (Rlt_bool_spec (B2R x) (B2R y)); split; auto; try discriminate; lra.
  - rewrite (phi_finite x); auto. pose proof (abs_B2R_lt_emax 53 1024 x) as Q. fold top64 in Q. apply Rabs_def2 in Q.
    destruct y as [s|s| |s m e b]; try discriminate. cbn [phi].
    destruct x as [s'|s'| |s' m' e' b']; try discriminate; destruct s; (split; [try (intros; discriminate); intros _; lra|]); intros ?; try reflexivity; try lra; try (destruct s'; reflexivity).
  - rewrite (phi_finite y); auto. pose proof (abs_B2R_lt_emax 53 1024 y) as Q. fold top64 in Q. apply Rabs_def2 in Q.
    destruct x as [s|s| |s m e b]; try discriminate. cbn [phi].
    destruct y as [s'|s'| |s' m' e' b']; try discriminate; destruct s; (split; [try (intros; discriminate); intros _; lra|]); intros ?; try reflexivity; try lra; try (destruct s'; reflexivity).
  - generalize top64_pos; intro. destruct x as [s|s| |s m e b]; try discriminate. destruct y as [s'|s'| |s' m' e' b']; try discriminate.
    cbn [phi]. destruct s, s'; cbn; split; try discriminate; auto; intros; lra.
Qed.
Lemma phi_ltb_false (x y : B64) : is_nan x = false -> is_nan y = false ->
  b64_ltb x y = false <-> phi y <= phi x.
Proof.
  intros Hx Hy. pose proof (phi_ltb x y Hx Hy). destruct (b64_ltb x y); split; intros; auto; try discriminate.
  - destruct H as [H _]. specialize (H eq_refl). lra.
  - destruct (Rle_lt_dec (phi y) (phi x)); auto. apply H in r. discriminate.
Qed.

Lemma phi_overflow (r : B64) s : B2SF r = binary_overflow 53 1024 mode_NE s ->
  is_nan r = false /\ phi r = if s then - top64 else top64.
Proof. cbn. destruct r as [?|s'| |?]; cbn; intros H; inversion H; subst. destruct s; auto. Qed.

Lemma Bsign_neg (x : B64) : is_finite x = true -> Bsign x = true -> B2R x <= 0.
Proof.
  destruct x as [s|s| |s m e b]; try discriminate; cbn [Bsign]; intros _ ->; [cbn; lra|].
  apply Rlt_le. apply F2R_lt_0. cbn. lia.
Qed.
Lemma Bsign_pos (x : B64) : is_finite x = true -> Bsign x = false -> 0 <= B2R x.
Proof.
  destruct x as [s|s| |s m e b]; try discriminate; cbn [Bsign]; intros _ ->; [cbn; lra|].
  apply Rlt_le. apply F2R_gt_0. cbn. lia.
Qed.

(** The result of an operation with exact value [v]. *)
Definition rounds_to (r : B64) (v : R) : Prop := is_nan r = false /\ phi r = fr v.

Lemma add_rounds (x y : B64) : is_finite x = true -> is_finite y = true ->
  rounds_to (nadd x y) (B2R x + B2R y).
Proof.
  intros Fx Fy. pose proof (Bplus_correct 53 1024 prec64 emax64 mode_NE x y Fx Fy) as Q. fold top64 in Q.
  change (round radix2 (SpecFloat.fexp 53 1024) (round_mode mode_NE)) with rnd64 in Q.
  destruct (Rlt_bool_spec (Rabs (rnd64 (B2R x + B2R y))) top64) as [C|C].
  - destruct Q as (Q1 & Q2 & _). split; [now apply finite_nan|]. rewrite phi_finite; auto.
    change (nadd x y) with (Bplus mode_NE x y). now rewrite Q1, fr_in.
  - destruct Q as (Q1 & Q2). apply phi_overflow in Q1. destruct Q1 as [Q1 Q3]. split; auto.
    change (nadd x y) with (Bplus mode_NE x y). rewrite Q3. destruct (Bsign x) eqn:Sx.
    + rewrite fr_neg_over; auto; [lra|]. apply Bsign_neg in Sx; auto. symmetry in Q2. apply Bsign_neg in Q2; auto. lra.
    + rewrite fr_pos_over; auto; [lra|]. apply Bsign_pos in Sx; auto. symmetry in Q2. apply Bsign_pos in Q2; auto. lra.
Qed.

Lemma sub_rounds (x y : B64) : is_finite x = true -> is_finite y = true ->
  rounds_to (nsub x y) (B2R x - B2R y).
Proof.
  intros Fx Fy. pose proof (Bminus_correct 53 1024 prec64 emax64 mode_NE x y Fx Fy) as Q. fold top64 in Q.
  change (round radix2 (SpecFloat.fexp 53 1024) (round_mode mode_NE)) with rnd64 in Q.
  destruct (Rlt_bool_spec (Rabs (rnd64 (B2R x - B2R y))) top64) as [C|C].
  - destruct Q as (Q1 & Q2 & _). split; [now apply finite_nan|]. rewrite phi_finite; auto.
    change (nsub x y) with (Bminus mode_NE x y). now rewrite Q1, fr_in.
  - destruct Q as (Q1 & Q2). apply phi_overflow in Q1. destruct Q1 as [Q1 Q3]. split; auto.
    change (nsub x y) with (Bminus mode_NE x y). rewrite Q3. destruct (Bsign x) eqn:Sx.
    + assert (Sy : Bsign y = false) by (destruct (Bsign y); auto).
      rewrite fr_neg_over; auto; [lra|]. apply Bsign_neg in Sx; auto. apply Bsign_pos in Sy; auto. lra.
    + assert (Sy : Bsign y = true) by (destruct (Bsign y); auto).
      rewrite fr_pos_over; auto; [lra|]. apply Bsign_pos in Sx; auto. apply Bsign_neg in Sy; auto. lra.
Qed.

Lemma mul_rounds (x y : B64) : is_finite x = true -> is_finite y = true ->
  rounds_to (nmul x y) (B2R x * B2R y).
Proof.
  intros Fx Fy. pose proof (Bmult_correct 53 1024 prec64 emax64 mode_NE x y) as Q. fold top64 in Q.
  change (round radix2 (SpecFloat.fexp 53 1024) (round_mode mode_NE)) with rnd64 in Q.
  destruct (Rlt_bool_spec (Rabs (rnd64 (B2R x * B2R y))) top64) as [C|C].
  - destruct Q as (Q1 & Q2 & _). rewrite Fx, Fy in Q2. split; [now apply finite_nan|]. rewrite phi_finite; auto.
    change (nmul x y) with (Bmult mode_NE x y). now rewrite Q1, fr_in.
  - apply phi_overflow in Q. destruct Q as [Q1 Q3]. split; auto.
    change (nmul x y) with (Bmult mode_NE x y). rewrite Q3.
    assert (Sx : Bsign x = true -> B2R x <= 0) by (now apply Bsign_neg).
    assert (Sy : Bsign y = true -> B2R y <= 0) by (now apply Bsign_neg).
    assert (Px : Bsign x = false -> 0 <= B2R x) by (now apply Bsign_pos).
    assert (Py : Bsign y = false -> 0 <= B2R y) by (now apply Bsign_pos).
    destruct (Bsign x), (Bsign y); cbn [xorb];
      repeat match goal with H : ?a = ?a -> _ |- _ => specialize (H eq_refl) | H : true = false -> _ |- _ => clear H | H : false = true -> _ |- _ => clear H end;
      [rewrite fr_pos_over|rewrite fr_neg_over|rewrite fr_neg_over|rewrite fr_pos_over]; auto; try lra; nra.
Qed.

(** Squares never produce NaN, even of infinities. *)
Lemma sq_rounds (x : B64) : is_nan x = false -> rounds_to (nmul x x) (phi x * phi x).
Proof.
  intros H. destruct (is_finite x) eqn:Fx.
  - rewrite phi_finite; auto. now apply mul_rounds.
  - destruct x as [s|s| |s m e b]; try discriminate. cbn [phi].
    assert (T : 1 <= top64). { change 1 with (bpow radix2 0). apply bpow_le. lia. }
    assert (T2 : top64 <= top64 * top64) by nra.
    destruct s; (split; [reflexivity|]); symmetry; apply fr_top; [replace (- top64 * - top64) with (top64 * top64) by ring|]; exact T2.
Qed.

(** Sums of non-negative numbers never produce NaN, even with infinities. *)
Lemma add_pos_rounds (x y : B64) : is_nan x = false -> is_nan y = false -> 0 <= phi x -> 0 <= phi y ->
  rounds_to (nadd x y) (phi x + phi y).
Proof.
  intros Hx Hy Px Py. generalize top64_pos; intro T.
  destruct (is_finite x) eqn:Fx, (is_finite y) eqn:Fy.
  - rewrite !phi_finite; auto. now apply add_rounds.
  - destruct y as [s|s| |s m e b]; try discriminate. cbn [phi] in *. destruct s; [lra|].
    destruct x as [s'|s'| |s' m' e' b']; try discriminate; (split; [reflexivity|]); cbn [phi] in *; cbn [nadd NumB64 Bplus];
      symmetry; apply fr_top; lra.
  - destruct x as [s|s| |s m e b]; try discriminate. cbn [phi] in *. destruct s; [lra|].
    destruct y as [s'|s'| |s' m' e' b']; try discriminate; (split; [reflexivity|]); cbn [phi] in *; cbn [nadd NumB64 Bplus];
      symmetry; apply fr_top; lra.
  - destruct x as [s|s| |s m e b]; try discriminate. destruct y as [s'|s'| |s' m' e' b']; try discriminate.
    cbn [phi] in *. destruct s; [lra|]. destruct s'; [lra|]. split; [reflexivity|]. symmetry; apply fr_top; lra.
Qed.

Lemma sqrt_pos (x : B64) : is_nan x = false -> 0 <= phi x ->
  is_nan (nsqrt x) = false /\ 0 <= phi (nsqrt x).
Proof.
  intros Hx Px. generalize top64_pos; intro T.
  destruct x as [s|s| |s m e b]; try discriminate.
  - cbn. split; [reflexivity|lra].
  - cbn [phi] in Px. destruct s; [lra|]. cbn. split; [reflexivity|lra].
  - destruct s.
    + exfalso. cbn [phi] in Px. revert Px. apply Rlt_not_le. apply F2R_lt_0. cbn; lia.
    + set (x := B754_finite false m e b). change (nsqrt x) with (Bsqrt mode_NE x).
      pose proof (Bsqrt_correct 53 1024 prec64 emax64 mode_NE x) as (Q1 & Q2 & _). cbn in Q2.
      split; [now apply finite_nan|]. rewrite phi_finite; auto. rewrite Q1.
      change (round radix2 (SpecFloat.fexp 53 1024) (round_mode mode_NE)) with rnd64.
      rewrite <- rnd64_0. apply rnd64_le. apply sqrt_pos.
Qed.
Lemma sqrt_mono (x y : B64) : is_nan x = false -> is_nan y = false -> 0 <= phi x -> phi x <= phi y ->
  phi (nsqrt x) <= phi (nsqrt y).
Proof.
  intros Hx Hy Px Pxy. generalize top64_pos; intro T.
  destruct (is_finite y) eqn:Fy.
  - destruct (is_finite x) eqn:Fx.
    + assert (G : forall z : B64, is_finite z = true -> 0 <= phi z -> phi (nsqrt z) = rnd64 (sqrt (B2R z))).
      { intros z Fz Pz. pose proof (Bsqrt_correct 53 1024 prec64 emax64 mode_NE z) as (Q1 & Q2 & _).
        change (nsqrt z) with (Bsqrt mode_NE z). rewrite phi_finite; [exact Q1|]. rewrite Q2.
        destruct z as [s|s| |s m e b]; try discriminate; auto. destruct s; auto.
        exfalso. revert Pz. apply Rlt_not_le. apply F2R_lt_0. cbn; lia. }
      rewrite !G; auto; [|lra]. apply rnd64_le. apply sqrt_le_1_alt. now rewrite <- !phi_finite.
    + destruct x as [s|s| |s m e b]; try discriminate. cbn [phi] in *. destruct s; [lra|].
      pose proof (abs_B2R_lt_emax 53 1024 y) as Q. fold top64 in Q. apply Rabs_def2 in Q. rewrite phi_finite in Pxy; auto. lra.
  - destruct y as [s|s| |s m e b]; try discriminate. cbn [phi] in Pxy. destruct s; [lra|].
    change (nsqrt (B754_infinity false : B64)) with (B754_infinity false : B64). cbn [phi].
    apply phi_bounds.
Qed.
