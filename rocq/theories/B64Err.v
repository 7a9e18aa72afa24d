(** * Rounding errors of sums, products and distances in binary64 *)
From Coq Require Import List Arith Bool Reals ZArith Lia Lra.
From Flocq Require Import Core BinarySingleNaN Relative Plus_error.
From Verif Require Import Base Num NumF B64Lemmas Linalg LinalgR Spec_B64.
Import ListNotations.
Local Open Scope R_scope.

Lemma u64_pos : 0 < u64. Proof. apply bpow_gt_0. Qed.
Lemma h64_pos : 0 < h64. Proof. apply bpow_gt_0. Qed.
Lemma u_ro_64 : u_ro radix2 53 = u64.
Proof. unfold u_ro, u64. change (/ 2) with (bpow radix2 (-1)). rewrite <- bpow_plus. reflexivity. Qed.
Lemma half_emin : / 2 * bpow radix2 (-1074) = h64.
Proof. unfold h64. change (/ 2) with (bpow radix2 (-1)). rewrite <- bpow_plus. reflexivity. Qed.

Lemma rnd_err_gen v : Rabs (rnd64 v - v) <= u64 * Rabs v + h64.
Proof.
  destruct (relative_error_N_FLT'_ex radix2 (-1074) 53 ltac:(lia) (fun z => negb (Z.even z)) v) as (e & h & He & Hh & _ & E).
  change (round radix2 (FLT_exp (-1074) 53) (Znearest (fun z => negb (Z.even z))) v) with (rnd64 v) in E.
  rewrite half_emin in Hh. rewrite u_ro_64 in He. assert (P := u64_pos).
  assert (He' : Rabs e <= u64).
  { apply Rle_trans with (1 := He). apply Rmult_le_reg_r with (1 + u64); [lra|]. unfold Rdiv. rewrite Rmult_assoc, Rinv_l by lra. nra. }
  rewrite E. replace (v * (1 + e) + h - v) with (e * v + h) by ring. apply Rle_trans with (1 := Rabs_triang _ _). rewrite Rabs_mult.
  pose proof (Rabs_pos v). nra.
Qed.
Lemma rnd_err_add (x y : B64) : Rabs (rnd64 (B2R x + B2R y) - (B2R x + B2R y)) <= u64 * Rabs (B2R x + B2R y).
Proof.
  destruct (FLT_plus_error_N_ex radix2 (-1074) 53 (fun z => negb (Z.even z)) (B2R x) (B2R y)) as (e & He & E).
  - apply (generic_format_B2R 53 1024).
  - apply (generic_format_B2R 53 1024).
  - change (round radix2 (FLT_exp (-1074) 53) (Znearest (fun z => negb (Z.even z))) (B2R x + B2R y)) with (rnd64 (B2R x + B2R y)) in E.
    rewrite u_ro_64 in He. assert (P := u64_pos).
    assert (He' : Rabs e <= u64).
    { apply Rle_trans with (1 := He). apply Rmult_le_reg_r with (1 + u64); [lra|]. unfold Rdiv. rewrite Rmult_assoc, Rinv_l by lra. nra. }
    rewrite E. replace ((B2R x + B2R y) * (1 + e) - (B2R x + B2R y)) with (e * (B2R x + B2R y)) by ring. rewrite Rabs_mult.
    apply Rmult_le_compat_r; auto. apply Rabs_pos.
Qed.

(** [x] is within [p] relative errors of [v], relative to the magnitude [m], plus [e]. *)
Definition err (p : nat) (e x v m : R) : Prop := Rabs v <= m /\ Rabs (x - v) <= ((1 + u64) ^ p - 1) * m + e.
Lemma pow_u_ge p : 1 <= (1 + u64) ^ p.
Proof. apply pow_R1_Rle. pose proof u64_pos. lra. Qed.
Lemma pow_u_le p q : (p <= q)%nat -> (1 + u64) ^ p <= (1 + u64) ^ q.
Proof. intros. apply Rle_pow; auto. pose proof u64_pos. lra. Qed.
Lemma err_mono p q e e' x v m : (p <= q)%nat -> e <= e' -> err p e x v m -> err q e' x v m.
Proof.
  intros H1 H2 [A B]. split; auto. apply pow_u_le in H1. pose proof (Rabs_pos v).
  assert (((1 + u64) ^ p - 1) * m <= ((1 + u64) ^ q - 1) * m) by (apply Rmult_le_compat_r; lra). lra.
Qed.
Lemma err_exact v : err 0 0 v v (Rabs v).
Proof. split; [lra|]. replace (v - v) with 0 by ring. rewrite Rabs_R0. cbn. lra. Qed.
Lemma err_abs p e x v m : err p e x v m -> Rabs x <= (1 + u64) ^ p * m + e.
Proof. intros [A B]. replace x with (v + (x - v)) by ring. apply Rle_trans with (1 := Rabs_triang _ _). lra. Qed.
(** Rounding. *)
Lemma err_step p e x v m r c : 0 <= e -> err p e x v m -> Rabs (r - x) <= u64 * Rabs x + c -> err (S p) ((1 + u64) * e + c) r v m.
Proof.
  intros He H R. pose proof (err_abs _ _ _ _ _ H) as X. destruct H as [A B]. split; auto.
  replace (r - v) with ((r - x) + (x - v)) by ring. apply Rle_trans with (1 := Rabs_triang _ _). cbn [pow]. pose proof u64_pos.
  assert (u64 * Rabs x <= u64 * ((1 + u64) ^ p * m + e)) by (apply Rmult_le_compat_l; lra). lra.
Qed.
Lemma err_round p e x v m : 0 <= e -> err p e x v m -> err (S p) ((1 + u64) * e + h64) (rnd64 x) v m.
Proof. intros. eapply err_step; eauto. apply rnd_err_gen. Qed.
Lemma err_plus p e1 e2 x y v w m n : err p e1 x v m -> err p e2 y w n -> err p (e1 + e2) (x + y) (v + w) (m + n).
Proof.
  intros [A B] [C D]. split; [apply Rle_trans with (1 := Rabs_triang _ _); lra|].
  replace (x + y - (v + w)) with ((x - v) + (y - w)) by ring. apply Rle_trans with (1 := Rabs_triang _ _). lra.
Qed.
Lemma err_add p e1 e2 (x y : B64) v w m n : 0 <= e1 -> 0 <= e2 -> err p e1 (B2R x) v m -> err p e2 (B2R y) w n ->
  err (S p) ((1 + u64) * (e1 + e2)) (rnd64 (B2R x + B2R y)) (v + w) (m + n).
Proof.
  intros H1 H2 E1 E2. replace ((1 + u64) * (e1 + e2)) with ((1 + u64) * (e1 + e2) + 0) by ring. eapply err_step; [lra|apply err_plus; eauto|].
  rewrite Rplus_0_r. apply rnd_err_add.
Qed.
Lemma err_scale p e x v m c : err p e x v m -> err p (Rabs c * e) (c * x) (c * v) (Rabs c * m).
Proof.
  intros [A B]. split; [rewrite Rabs_mult; apply Rmult_le_compat_l; auto; apply Rabs_pos|].
  replace (c * x - c * v) with (c * (x - v)) by ring. rewrite Rabs_mult. pose proof (Rabs_pos c). nra.
Qed.

(** Finite results of operations. *)
Lemma finite_rnd (r : B64) v : rounds_to r v -> is_finite r = true -> B2R r = rnd64 v.
Proof.
  intros [H1 H2] F. rewrite phi_finite in H2 by auto. rewrite H2. apply fr_in.
  pose proof (abs_B2R_lt_emax 53 1024 r) as Q. fold top64 in Q. rewrite H2 in Q. apply Rabs_def2 in Q.
  unfold fr, Rmax, Rmin in Q. apply Rabs_def1; repeat destruct Rle_dec; lra.
Qed.
Lemma nadd_finite_inv (x y : B64) : is_finite (nadd x y) = true -> is_finite x = true /\ is_finite y = true.
Proof. destruct x as [s|s| |s m e b], y as [s'|s'| |s' m' e' b']; cbn; auto; try discriminate; destruct s; try destruct s'; cbn; auto; discriminate. Qed.
Lemma nsub_finite_inv (x y : B64) : is_finite (nsub x y) = true -> is_finite x = true /\ is_finite y = true.
Proof. destruct x as [s|s| |s m e b], y as [s'|s'| |s' m' e' b']; cbn; auto; try discriminate; destruct s; try destruct s'; cbn; auto; discriminate. Qed.
Lemma nmul_finite_inv (x y : B64) : is_finite (nmul x y) = true -> is_finite x = true /\ is_finite y = true.
Proof. destruct x as [s|s| |s m e b], y as [s'|s'| |s' m' e' b']; cbn; auto; try discriminate. Qed.

(** ** Sums *)
Lemma fold_finite (l : list B64) : forall a, is_finite (fold_left nadd l a) = true -> is_finite a = true /\ Forall (fun x => is_finite x = true) l.
Proof.
  induction l as [|x l IH]; intros a H; cbn in H; auto. apply IH in H. destruct H as [H1 H2]. apply nadd_finite_inv in H1. destruct H1. auto.
Qed.
Inductive errs (p : nat) (e : R) : list B64 -> list R -> list R -> Prop :=
| errs_nil : errs p e [] [] []
| errs_cons x xs v vs m ms : err p e (B2R x) v m -> errs p e xs vs ms -> errs p e (x :: xs) (v :: vs) (m :: ms).
Lemma fold_err p e xs vs ms : 0 <= e -> errs p e xs vs ms -> forall q a E va ma, 0 <= E -> is_finite (fold_left nadd xs a) = true -> (p <= q)%nat -> err q E (B2R a) va ma ->
  err (q + length xs) ((E + INR (length xs) * e) * (1 + u64) ^ length xs) (B2R (fold_left nadd xs a)) (va + rsum vs) (ma + rsum ms).
Proof.
  intros He H. induction H as [|x xs v vs m ms Hx _ IH]; intros q a E va ma HE F L Ha; cbn [fold_left length rsum] in *.
  - rewrite Nat.add_0_r, !Rplus_0_r. cbn. replace ((E + 0 * e) * 1) with E by ring. auto.
  - destruct (fold_finite _ _ F) as [F1 _]. destruct (nadd_finite_inv _ _ F1) as [Fa Fx]. pose proof u64_pos as P.
    assert (A : err (S q) ((1 + u64) * (E + e)) (B2R (nadd a x)) (va + v) (ma + m)).
    { rewrite (finite_rnd _ _ (add_rounds a x Fa Fx) F1). apply err_add; auto. eapply err_mono; [exact L| |exact Hx]. lra. }
    assert (HE' : 0 <= (1 + u64) * (E + e)) by (apply Rmult_le_pos; lra).
    specialize (IH (S q) (nadd a x) _ _ _ HE' F ltac:(lia) A). rewrite <- !Rplus_assoc. eapply err_mono; [| |exact IH]; [lia|].
    rewrite S_INR. pose proof (pos_INR (length xs)) as K. pose proof (pow_u_ge (length xs)) as K2. cbn [pow].
    rewrite <- Rmult_assoc. apply Rmult_le_compat_r; [lra|]. assert (0 <= u64 * (INR (length xs) * e)) by (apply Rmult_le_pos; [lra|apply Rmult_le_pos; lra]). lra.
Qed.
Lemma vsum_err p e xs vs ms : 0 <= e -> errs p e xs vs ms -> is_finite (vsum xs) = true ->
  err (p + length xs) (INR (length xs) * e * (1 + u64) ^ length xs) (B2R (vsum xs)) (rsum vs) (rsum ms).
Proof.
  intros He H F. pose proof (fold_err p e xs vs ms He H p nzero 0 0 0 (Rle_refl 0) F (le_n p)) as Q.
  rewrite !Rplus_0_l in Q. apply Q. split; [rewrite Rabs_R0; lra|]. cbn [B2R nzero NumB64]. rewrite Rminus_0_r, Rabs_R0. lra.
Qed.
