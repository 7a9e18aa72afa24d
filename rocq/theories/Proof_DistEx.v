From Coq Require Import Reals Lra Lia Arith Bool.
From Coquelicot Require Import Coquelicot.
From Verif Require Import Base BaseLemmas Num NumX NumFn NumSign RealBounds Model_Dist Spec_Dist Proof_Dist.
Local Open Scope R_scope.

(** Integral of the partial sums of exp(-t^2/2). *)
Definition tint (n : nat) (t : R) : R := sumR (S n) (fun k => (-1) ^ k * t ^ (2 * k + 1) / (2 ^ k * INR (fact k) * INR (2 * k + 1))).
Lemma tint_S n t : tint (S n) t = tint n t + (-1) ^ S n * t ^ (2 * S n + 1) / (2 ^ S n * INR (fact (S n)) * INR (2 * S n + 1)).
Proof. reflexivity. Qed.
Lemma tint_deriv' n t : derivable_pt_lim (tint n) t (texp n (- (t ^ 2 / 2))).
Proof.
  induction n as [|n IH].
  - apply (derivable_pt_lim_ext id); [intros s; unfold tint, id; cbn; field|].
    replace (texp 0 (- (t ^ 2 / 2))) with 1 by (unfold texp; cbn; field). apply derivable_pt_lim_id.
  - apply (derivable_pt_lim_ext (fun s => tint n s + (-1) ^ S n / (2 ^ S n * INR (fact (S n)) * INR (2 * S n + 1)) * s ^ (2 * S n + 1))).
    { intros s. rewrite tint_S. unfold Rdiv. ring. }
    rewrite texp_S. apply (derivable_pt_lim_plus (tint n)); [exact IH|].
    set (c := (-1) ^ S n / (2 ^ S n * INR (fact (S n)) * INR (2 * S n + 1))).
    replace ((- (t ^ 2 / 2)) ^ S n / INR (fact (S n))) with (c * (INR (2 * S n + 1) * t ^ (2 * S n))).
    + apply (derivable_pt_lim_scal (fun s => s ^ (2 * S n + 1))). rewrite Nat.add_1_r. apply (derivable_pt_lim_pow t (S (2 * S n))).
    + unfold c. replace (- (t ^ 2 / 2)) with ((-1) * t ^ 2 * / 2) by field. rewrite !Rpow_mult_distr, <- pow_mult, pow_inv.
      field. repeat split; try apply INR_fact_neq_0; try (apply not_0_INR; lia); apply pow_nonzero; lra.
Qed.
Lemma tint_deriv n t : is_derive (tint n) t (texp n (- (t ^ 2 / 2))).
Proof. apply is_derive_Reals, tint_deriv'. Qed.
Lemma tint_0 n : tint n 0 = 0.
Proof.
  induction n as [|n IH]; [unfold tint; cbn; field|].
  change (tint (S n) 0) with (tint n 0 + (-1) ^ S n * 0 ^ (2 * S n + 1) / (2 ^ S n * INR (fact (S n)) * INR (2 * S n + 1))). rewrite IH, pow_i by lia. unfold Rdiv. ring.
Qed.
Lemma texp_continuous n t : continuous (fun t => texp n (- (t ^ 2 / 2))) t.
Proof.
  apply (continuous_comp (fun t => - (t ^ 2 / 2)) (texp n)).
  - apply (ex_derive_continuous (K := R_AbsRing) (V := R_NormedModule)). auto_derive. auto.
  - destruct n as [|n].
    + apply (continuous_ext (fun _ => 1)); [intros; unfold texp; cbn; field|apply continuous_const].
    + apply (ex_derive_continuous (K := R_AbsRing) (V := R_NormedModule)). eexists. apply is_derive_Reals, texp_deriv.
Qed.
Lemma tint_int n x : is_RInt (fun t => texp n (- (t ^ 2 / 2))) 0 x (tint n x).
Proof.
  replace (tint n x) with (minus (tint n x) (tint n 0)) by (rewrite tint_0; apply Rminus_0_r).
  apply (is_RInt_derive (tint n)); intros; [apply tint_deriv|apply texp_continuous].
Qed.
Lemma gauss_int_ex x : ex_RInt (fun t => exp (- (t ^ 2 / 2))) 0 x.
Proof. apply (ex_RInt_continuous (V := R_CompleteNormedModule)). intros t _. apply (ex_derive_continuous (K := R_AbsRing) (V := R_NormedModule)). auto_derive. auto. Qed.
Lemma gauss_int_upper k x : 0 <= x -> RInt (fun t => exp (- (t ^ 2 / 2))) 0 x <= tint (2 * k) x.
Proof.
  intros H. rewrite <- (is_RInt_unique _ _ _ _ (tint_int (2 * k) x)). apply RInt_le; auto; [apply gauss_int_ex|eexists; apply tint_int|].
  intros t _. apply texp_neg_upper. pose proof (pow2_ge_0 t). lra.
Qed.
Lemma gauss_int_lower k x : 0 <= x -> tint (S (2 * k)) x <= RInt (fun t => exp (- (t ^ 2 / 2))) 0 x.
Proof.
  intros H. rewrite <- (is_RInt_unique _ _ _ _ (tint_int (S (2 * k)) x)). apply RInt_le; auto; [eexists; apply tint_int|apply gauss_int_ex|].
  intros t _. apply texp_neg_lower. pose proof (pow2_ge_0 t). lra.
Qed.
Lemma normal_cdf_std x : normal_cdf 0 1 x = / 2 + RInt (fun t => exp (- (t ^ 2 / 2))) 0 x / sqrt (2 * PI).
Proof.
  unfold normal_cdf. f_equal. rewrite (RInt_ext _ (fun t => scal (/ sqrt (2 * PI)) (exp (- (t ^ 2 / 2))))).
  - rewrite (RInt_scal (V := R_CompleteNormedModule)); [|apply gauss_int_ex]. unfold scal. cbn. unfold mult. cbn. unfold Rdiv. ring.
  - intros t _. unfold normal_density, scal. cbn. unfold mult. cbn. rewrite !Rmult_1_r. unfold Rdiv. rewrite Rmult_comm. f_equal. f_equal. field.
Qed.

Ltac numeral := rewrite !fact_simpl, !mult_INR; change (fact 0) with 1%nat; rewrite !INR_IZR_INZ; cbn [Z.of_nat Pos.of_succ_nat Pos.succ pow].
Theorem cdf_error : 3 / 1000 < gauss_cdf gaussian_default (8 / 5) - normal_cdf 0 1 (8 / 5).
Proof.
  rewrite gauss_default_standard, gauss_cdf_R, normal_cdf_std by lra. destruct (Rlt_dec (8 / 5 - 0) 0); [lra|]. unfold polya.
  pose proof PI_lower as Pl. pose proof PI_upper as Pu.
  assert (S2 : 250659 / 100000 <= sqrt (2 * PI)). { rewrite <- (sqrt_pow2 (250659 / 100000)) by lra. apply sqrt_le_1_alt. lra. }
  assert (I : RInt (fun t => exp (- (t ^ 2 / 2))) 0 (8 / 5) / sqrt (2 * PI) <= 44529 / 100000).
  { apply (Rmult_le_reg_r (sqrt (2 * PI))); [lra|]. unfold Rdiv at 1. rewrite Rmult_assoc, Rinv_l, Rmult_1_r by lra.
    apply Rle_trans with (tint (2 * 4) (8 / 5)); [apply gauss_int_upper; lra|].
    apply Rle_trans with (44529 / 100000 * (250659 / 100000)); [|apply Rmult_le_compat_l; lra].
    unfold tint. cbn [sumR Nat.mul Nat.add]. numeral. lra. }
  assert (E : exp (- (2 / PI) * (8 / 5 - 0) ^ 2 / 1) <= 19611 / 100000).
  { replace (- (2 / PI) * (8 / 5 - 0) ^ 2 / 1) with (- (128 / 25 / PI)) by (field; lra). rewrite exp_Ropp.
    assert (U : 16297 / 10000 <= 128 / 25 / PI). { apply (Rmult_le_reg_r PI); [lra|]. unfold Rdiv at 2. rewrite Rmult_assoc, Rinv_l by lra. lra. }
    assert (X : 50993 / 10000 <= exp (128 / 25 / PI)).
    { apply Rle_trans with (exp (16297 / 10000)); [|destruct U as [U| <-]; [left; now apply exp_increasing|lra]].
      apply Rle_trans with (texp 8 (16297 / 10000)); [|apply texp_lower; lra]. unfold texp. cbn [sumR]. numeral. lra. }
    apply Rle_trans with (/ (50993 / 10000)); [apply Rinv_le_contravar; lra|lra]. }
  assert (Q : 89659 / 100000 <= sqrt (1 - exp (- (2 / PI) * (8 / 5 - 0) ^ 2 / 1))).
  { rewrite <- (sqrt_pow2 (89659 / 100000)) by lra. apply sqrt_le_1_alt. lra. }
  lra.
Qed.
