(** The Gaussian integral, by differentiating under the integral sign. *)
From Coq Require Import Reals Lra.
From Coquelicot Require Import Coquelicot.
Local Open Scope R_scope.

Definition hump (t : R) : R := exp (- (t ^ 2 / 2)).
Lemma exp_le_mon x y : x <= y -> exp x <= exp y.
Proof. intros [H| ->]; [left; now apply exp_increasing|now right]. Qed.
Lemma hump_pos t : 0 < hump t. Proof. apply exp_pos. Qed.
Lemma hump_deriv t : is_derive hump t (- t * hump t).
Proof. unfold hump. auto_derive; [exact I|]. set (z := exp _). field. Qed.
Lemma hump_cont t : continuous hump t.
Proof. apply (ex_derive_continuous hump). eexists. apply hump_deriv. Qed.
Lemma hump_int a b : ex_RInt hump a b.
Proof. apply (ex_RInt_continuous (V := R_CompleteNormedModule)). intros z _. apply hump_cont. Qed.
Definition area (t : R) : R := RInt hump 0 t.
Lemma area_deriv t : is_derive area t (hump t).
Proof.
  unfold area. apply (is_derive_RInt hump (fun b => RInt hump 0 b) 0 t).
  - apply filter_forall. intros y. apply (RInt_correct (V := R_CompleteNormedModule)), hump_int.
  - apply hump_cont.
Qed.
Lemma area_0 : area 0 = 0. Proof. exact (RInt_point (V := R_CompleteNormedModule) 0 hump). Qed.
Lemma area_nonneg t : 0 <= t -> 0 <= area t.
Proof. intros H. apply RInt_ge_0; [exact H|apply hump_int|]. intros x _. left. apply hump_pos. Qed.

Definition fan (t x : R) : R := exp (- (t ^ 2 / 2) * (1 + x ^ 2)) / (1 + x ^ 2).
Lemma den_pos x : 0 < 1 + x ^ 2. Proof. pose proof (pow2_ge_0 x). lra. Qed.
Lemma fan_cont t x : continuous (fan t) x.
Proof.
  apply (ex_derive_continuous (fan t)). unfold fan. auto_derive. pose proof (den_pos x). simpl in *. lra.
Qed.
Lemma fan_int t : ex_RInt (fan t) 0 1.
Proof. apply (ex_RInt_continuous (V := R_CompleteNormedModule)). intros z _. apply fan_cont. Qed.
Lemma fan_deriv t x : is_derive (fun u => fan u x) t (- t * exp (- (t ^ 2 / 2) * (1 + x ^ 2))).
Proof. unfold fan. pose proof (den_pos x). auto_derive; [exact I|]. set (z := exp _). field. simpl in *. lra. Qed.
Definition fans (t : R) : R := RInt (fan t) 0 1.
Lemma fans_deriv t : is_derive fans t (- hump t * area t).
Proof.
  unfold fans.
  assert (E : RInt (fun x => Derive (fun u => fan u x) t) 0 1 = - hump t * area t).
  { apply is_RInt_unique. apply (is_RInt_ext (V := R_NormedModule) (fun x => scal (- hump t) (scal t (hump (t * x + 0))))).
    - intros x _. transitivity (- t * exp (- (t ^ 2 / 2) * (1 + x ^ 2))); [|symmetry; exact (is_derive_unique _ _ _ (fan_deriv t x))]. unfold scal. simpl. unfold mult. simpl. unfold hump.
      replace (- exp (- (t ^ 2 / 2)) * (t * exp (- ((t * x + 0) ^ 2 / 2)))) with (- t * (exp (- (t ^ 2 / 2)) * exp (- ((t * x + 0) ^ 2 / 2)))) by ring.
      rewrite <- exp_plus. f_equal. f_equal. field.
    - apply (is_RInt_scal (V := R_NormedModule) (fun x => scal t (hump (t * x + 0))) 0 1 (- hump t) (area t)).
      apply (is_RInt_comp_lin (V := R_NormedModule) hump t 0 0 1). rewrite Rmult_0_r, Rmult_1_r, !Rplus_0_r.
      apply (RInt_correct (V := R_CompleteNormedModule)), hump_int. }
  rewrite <- E. apply is_derive_RInt_param.
  - apply filter_forall. intros y x _. eexists. apply fan_deriv.
  - intros x _. apply continuity_2d_pt_ext with (fun u v => - u * exp (- (u ^ 2 / 2) * (1 + v ^ 2))).
    { intros u v. symmetry. apply is_derive_unique, fan_deriv. }
    apply continuity_2d_pt_mult; [apply continuity_2d_pt_opp, continuity_2d_pt_id1|].
    apply (continuity_1d_2d_pt_comp exp (fun u v => - (u ^ 2 / 2) * (1 + v ^ 2))); [apply derivable_continuous_pt, derivable_pt_exp|].
    apply continuity_2d_pt_mult.
    + apply continuity_2d_pt_opp. apply continuity_2d_pt_mult; [|apply continuity_2d_pt_const]. simpl.
      apply continuity_2d_pt_mult; [apply continuity_2d_pt_id1|apply continuity_2d_pt_mult; [apply continuity_2d_pt_id1|apply continuity_2d_pt_const]].
    + apply continuity_2d_pt_plus; [apply continuity_2d_pt_const|]. simpl.
      apply continuity_2d_pt_mult; [apply continuity_2d_pt_id2|apply continuity_2d_pt_mult; [apply continuity_2d_pt_id2|apply continuity_2d_pt_const]].
  - apply filter_forall. intros y. apply fan_int.
Qed.
Lemma fans_0 : fans 0 = PI / 4.
Proof.
  assert (H : is_RInt (fun x => / (1 + x ^ 2)) 0 1 (minus (atan 1) (atan 0))).
  { apply (is_RInt_derive (V := R_CompleteNormedModule) atan).
    - intros x _. apply is_derive_Reals, derivable_pt_lim_atan.
    - intros x _. apply (ex_derive_continuous (fun x => / (1 + x ^ 2))). auto_derive. pose proof (den_pos x). simpl in *. lra. }
  unfold fans. rewrite (RInt_ext _ (fun x => / (1 + x ^ 2))).
  - rewrite (is_RInt_unique _ _ _ _ H). unfold minus, plus, opp. simpl. rewrite atan_0, atan_1. apply Rminus_0_r.
  - intros x _. unfold fan. replace (- (0 ^ 2 / 2) * (1 + x ^ 2)) with 0 by field. rewrite exp_0. unfold Rdiv. apply Rmult_1_l.
Qed.
Lemma fans_bound t : 0 <= fans t <= hump t.
Proof.
  unfold fans. split.
  - apply RInt_ge_0; [lra|apply fan_int|]. intros x _. unfold fan. left. apply Rdiv_lt_0_compat; [apply exp_pos|apply den_pos].
  - replace (hump t) with (RInt (fun _ => hump t) 0 1).
    + apply RInt_le; [lra|apply fan_int|apply ex_RInt_const|]. intros x Hx. unfold fan, hump. pose proof (den_pos x) as D. apply Rle_div_l; [exact D|].
      assert (P := exp_pos (- (t ^ 2 / 2))). apply Rle_trans with (exp (- (t ^ 2 / 2)) * 1).
      * rewrite Rmult_1_r. apply exp_le_mon. pose proof (pow2_ge_0 t). pose proof (pow2_ge_0 x). nra.
      * apply Rmult_le_compat_l; [lra|]. pose proof (pow2_ge_0 x). lra.
    + rewrite RInt_const. unfold scal. simpl. unfold mult. simpl. ring.
Qed.
Lemma area_fans t : area t ^ 2 + 2 * fans t = PI / 2.
Proof.
  replace (PI / 2) with (area 0 ^ 2 + 2 * fans 0) by (rewrite area_0, fans_0; field).
  set (h := fun t => area t ^ 2 + 2 * fans t). change (h t = h 0).
  assert (D : forall x, is_derive h x 0).
  { intros x. unfold h. replace 0 with (plus (scal (INR 2 * hump x * area x ^ 1) 1) (scal 2 (- hump x * area x))) at 1.
    2:{ unfold plus, scal. simpl. unfold mult. simpl. ring. }
    apply (is_derive_plus (fun t => area t ^ 2) (fun t => 2 * fans t)).
    - replace (scal (INR 2 * hump x * area x ^ 1) 1) with (INR 2 * hump x * area x ^ Init.Nat.pred 2) by (unfold scal; simpl; unfold mult; simpl; ring).
      apply is_derive_pow, area_deriv.
    - apply (is_derive_scal fans). apply fans_deriv. }
  destruct (MVT_gen h 0 t (fun _ => 0)) as (c & _ & E).
  - intros x _. apply D.
  - intros x _. apply continuity_pt_filterlim. apply (ex_derive_continuous h). eexists. apply D.
  - lra.
Qed.

(** Decay at both ends. *)
Lemma hump_decay t : t <> 0 -> hump t <= 2 / t ^ 2.
Proof.
  intros H. assert (Q : 0 < t ^ 2) by (apply pow2_gt_0, H). unfold hump. rewrite exp_Ropp. pose proof (exp_ineq1_le (t ^ 2 / 2)) as E.
  apply Rle_trans with (/ (t ^ 2 / 2)); [apply Rinv_le_contravar; lra|]. right. field. lra.
Qed.
Lemma near_p (f : R -> R) l K : (forall x, 1 <= x -> Rabs (f x - l) <= K / x) -> filterlim f (Rbar_locally p_infty) (locally l).
Proof.
  intros H. apply filterlim_locally. intros [e He]. exists (Rmax 1 ((Rabs K + 1) / e)). intros x Hx.
  assert (X1 : 1 < x) by (eapply Rle_lt_trans; [apply Rmax_l|exact Hx]).
  assert (X2 : (Rabs K + 1) / e < x) by (eapply Rle_lt_trans; [apply Rmax_r|exact Hx]).
  unfold ball. simpl. unfold AbsRing_ball, abs, minus, plus, opp. simpl.
  eapply Rle_lt_trans; [apply H; lra|]. apply Rlt_div_l in X2; [|exact He]. apply Rlt_div_l; [lra|]. pose proof (Rle_abs K). lra.
Qed.
Lemma near_m (f : R -> R) l K : (forall x, 1 <= x -> Rabs (f (- x) - l) <= K / x) -> filterlim f (Rbar_locally m_infty) (locally l).
Proof.
  intros H. apply filterlim_ext with (fun x => (fun y => f (- y)) (- x)); [intros x; now rewrite Ropp_involutive|].
  apply (filterlim_comp _ _ _ Ropp (fun y => f (- y)) (Rbar_locally m_infty) (Rbar_locally p_infty)); [|eapply near_p, H].
  exact (filterlim_Rbar_opp m_infty).
Qed.
Lemma area_opp t : area (- t) = - area t.
Proof.
  assert (H1 : is_RInt (V := R_NormedModule) (fun x => scal (-1) (hump (-1 * x + 0))) 0 t (area (- t))).
  { apply (is_RInt_comp_lin (V := R_NormedModule) hump (-1) 0 0 t). replace (-1 * 0 + 0) with 0 by ring. replace (-1 * t + 0) with (- t) by ring.
    apply (RInt_correct (V := R_CompleteNormedModule)), hump_int. }
  assert (H2 : is_RInt (V := R_NormedModule) (fun x => scal (-1) (hump (-1 * x + 0))) 0 t (scal (-1) (area t))).
  { apply (is_RInt_ext (V := R_NormedModule) (fun x => scal (-1) (hump x))).
    - intros x _. f_equal. unfold hump. f_equal. f_equal. field.
    - apply (is_RInt_scal (V := R_NormedModule) hump 0 t (-1) (area t)). apply (RInt_correct (V := R_CompleteNormedModule)), hump_int. }
  apply (is_RInt_unique (V := R_CompleteNormedModule)) in H1. apply (is_RInt_unique (V := R_CompleteNormedModule)) in H2. rewrite H1 in H2. rewrite H2. unfold scal. simpl. unfold mult. simpl. ring.
Qed.
Lemma area_gap t : 1 <= t -> Rabs (area t - sqrt (PI / 2)) <= 4 / sqrt (PI / 2) / t.
Proof.
  intros H. pose proof PI_RGT_0 as HP. set (s := sqrt (PI / 2)). assert (S2 : s * s = PI / 2) by (apply sqrt_sqrt; lra).
  assert (S0 : 0 < s) by (apply sqrt_lt_R0; lra). pose proof (area_fans t) as E. pose proof (fans_bound t) as [B1 B2]. pose proof (area_nonneg t ltac:(lra)) as A0.
  pose proof (hump_decay t ltac:(lra)) as HD.
  assert (X : (s - area t) * (s + area t) = 2 * fans t) by nra.
  assert (Y : 0 <= s - area t). { destruct (Rle_dec 0 (s - area t)) as [|Y]; [assumption|]. assert ((s - area t) * (s + area t) < 0) by nra. lra. }
  rewrite Rabs_left1 by lra. replace (4 / s / t) with (4 / (s * t)) by (field; lra). apply Rle_div_r; [apply Rmult_lt_0_compat; lra|].
  assert (Z : (s - area t) * s <= 2 * fans t) by nra.
  assert (W : 2 / t ^ 2 <= 2 / t). { unfold Rdiv. apply Rmult_le_compat_l; [lra|]. apply Rinv_le_contravar; [lra|]. nra. }
  assert (V : 2 / t * t = 2) by (field; lra). nra.
Qed.
Theorem area_p : filterlim area (Rbar_locally p_infty) (locally (sqrt (PI / 2))).
Proof. eapply near_p, area_gap. Qed.
Theorem area_m : filterlim area (Rbar_locally m_infty) (locally (- sqrt (PI / 2))).
Proof.
  eapply near_m. intros x H. rewrite area_opp. replace (- area x - - sqrt (PI / 2)) with (- (area x - sqrt (PI / 2))) by ring. rewrite Rabs_Ropp. now apply area_gap.
Qed.
(** Integrals over unbounded intervals from a primitive. *)
Lemma gen_primitive (f P : R -> R) (Fa Fb : (R -> Prop) -> Prop) {FFa : Filter Fa} {FFb : Filter Fb} la lb :
  (forall x, is_derive P x (f x)) -> (forall x, continuous f x) -> filterlim P Fa (locally la) -> filterlim P Fb (locally lb) ->
  is_RInt_gen f Fa Fb (lb - la).
Proof.
  intros D C HA HB. assert (E : forall x, Derive P x = f x) by (intros x; apply is_derive_unique, D).
  apply (is_RInt_gen_ext (Derive P)).
  - apply filter_forall. intros ab x _. apply E.
  - apply is_RInt_gen_Derive; [| |exact HA|exact HB]; apply filter_forall; intros ab x _.
    + eexists. apply D.
    + apply (continuous_ext f); [intros y; symmetry; apply E|apply C].
Qed.
