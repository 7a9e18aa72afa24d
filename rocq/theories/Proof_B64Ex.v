(** * Concrete cases for the binary64 theorems *)
From Coq Require Import List Arith Bool Reals ZArith Lia Lra.
From Flocq Require Import Core BinarySingleNaN.
From Verif Require Import Base Num NumF NumFn B64Lemmas Linalg LinalgR Model_Kernel Model_Cost Model_KMeans Model_Regression Spec_B64 B64Err Proof_ScoreB64 Proof_KernelB64 Proof_DistB64 Proof_ErrB64.
Import ListNotations.
Local Open Scope R_scope.

(** The binary64 number nearest to a real in the unit interval, hence a correctly rounded exponential. *)
Definition b64_near (v : R) : B64 :=
  binary_normalize 53 1024 prec64 emax64 mode_NE (ZnearestE (scaled_mantissa radix2 (SpecFloat.fexp 53 1024) v)) (cexp radix2 (SpecFloat.fexp 53 1024) v) false.
Lemma near_real v : 0 <= v <= 1 -> is_real (b64_near v) (rnd64 v).
Proof.
  intros H. assert (B : 0 <= rnd64 v <= 1).
  { pose proof (rnd64_le 0 v ltac:(lra)) as P1. pose proof (rnd64_le v 1 ltac:(lra)) as P2. rewrite rnd64_0 in P1. rewrite rnd64_1 in P2. auto. }
  pose proof (binary_normalize_correct 53 1024 prec64 emax64 mode_NE (ZnearestE (scaled_mantissa radix2 (SpecFloat.fexp 53 1024) v)) (cexp radix2 (SpecFloat.fexp 53 1024) v) false) as Q. cbv zeta in Q.
  change (F2R (Float radix2 (ZnearestE (scaled_mantissa radix2 (SpecFloat.fexp 53 1024) v)) (cexp radix2 (SpecFloat.fexp 53 1024) v))) with (rnd64 v) in Q.
  change (round radix2 (SpecFloat.fexp 53 1024) (round_mode mode_NE) (rnd64 v)) with (rnd64 (rnd64 v)) in Q.
  assert (I : rnd64 (rnd64 v) = rnd64 v). { unfold rnd64 at 1. apply round_generic; [apply valid_rnd_N|]. apply generic_format_round. apply fexp_correct. exact prec64. apply valid_rnd_N. }
  rewrite I, Rlt_bool_true in Q by (rewrite Rabs_right by lra; apply Rle_lt_trans with 1; [lra|]; change 1 with (bpow radix2 0); apply bpow_lt; lia).
  destruct Q as (Q1 & Q2 & _). split; auto.
Qed.
Definition b64_exp (x : B64) : B64 :=
  match x with
  | B754_nan => B754_nan
  | B754_infinity s => if s then B754_zero false else B754_infinity false
  | _ => b64_near (exp (B2R x))
  end.
Lemma near_one : b64_near 1 = b64_of_Z 1.
Proof.
  destruct (near_real 1 ltac:(lra)) as [F V]. rewrite rnd64_1 in V. destruct one_real as [F1 V1]. change (INR 1) with 1 in V1. change (@nonev B64 NumB64) with (b64_of_Z 1) in *.
  apply B2R_inj; [| |congruence]; apply is_finite_strict_B2R; lra.
Qed.
Lemma exp_good : good_exp b64_exp.
Proof.
  split.
  - intros x H. destruct x as [s|s| |s m e b]; try discriminate H.
    + unfold b64_exp. cbn [B2R]. rewrite exp_0, near_one. split; [reflexivity|]. pose proof (proj2 one_real) as V. change (INR 1) with 1 in V. change (@nonev B64 NumB64) with (b64_of_Z 1) in V. rewrite V. lra.
    + destruct s; [|discriminate H]. cbn. split; [reflexivity|lra].
    + rewrite Bleb_correct in H by reflexivity. unfold b64_exp.
      set (x := B754_finite s m e b) in *. assert (Hx : B2R x <= 0). { change (B2R (B754_zero false : B64)) with 0 in H. destruct (Rle_bool_spec (B2R x) 0); [auto|discriminate]. }
      assert (E : 0 <= exp (B2R x) <= 1). { split; [left; apply exp_pos|]. rewrite <- exp_0. destruct (Req_dec (B2R x) 0) as [->|]; [lra|]. left. apply exp_increasing. lra. }
      destruct (near_real _ E) as [F V]. split; auto. rewrite V. pose proof (rnd64_le 0 (exp (B2R x)) ltac:(lra)) as P1. pose proof (rnd64_le (exp (B2R x)) 1 ltac:(lra)) as P2. rewrite rnd64_0 in P1. rewrite rnd64_1 in P2. auto.
  - intros x [F V]. destruct x as [s|s| |s m e b]; try discriminate.
    + unfold b64_exp. cbn [B2R]. now rewrite exp_0, near_one.
    + unfold b64_exp. rewrite V, exp_0. apply near_one.
Qed.
(** Underflow: different matrices with score zero. *)
Definition tiny64 : B64 := b64_bin 1 (-600).
Lemma underflow_score : neg_mean_squared_error (F := B64) (Mat [[tiny64]] 1) (Mat [[nzero]] 1) = Ok (B754_zero true) /\ B2R tiny64 <> 0.
Proof.
  split.
  - unfold neg_mean_squared_error. cbn -[tiny64 nsub nmul nadd ndiv nopp nofnat nonev nzero]. reflexivity.
  - unfold tiny64, b64_bin. assert (E : exists m e b, b64_bin 1 (-600) = B754_finite false m e b).
    { destruct (b64_bin 1 (-600)) as [s|s| |s m e b] eqn:E; apply (f_equal B2SF) in E; vm_compute in E; try discriminate. injection E as <- <- <-. eauto. }
    destruct E as (m & e & b & E). unfold b64_bin in E. rewrite E. apply Rgt_not_eq. apply F2R_gt_0. cbn. lia.
Qed.
Lemma small_moderate (z : Z) : (Z.abs z <= 2 ^ 53)%Z -> is_finite (b64_of_Z z) = true /\ Rabs (B2R (b64_of_Z z)) <= bpow radix2 500.
Proof.
  intros H. unfold b64_of_Z. pose proof (binary_normalize_correct 53 1024 prec64 emax64 mode_NE z 0 false) as Q. cbv zeta in Q.
  change (round radix2 (SpecFloat.fexp 53 1024) (round_mode mode_NE)) with rnd64 in Q. fold top64 in Q.
  assert (E : F2R (Float radix2 z 0) = IZR z) by (unfold F2R; cbn; lra). rewrite E in Q.
  assert (B : Rabs (IZR z) <= bpow radix2 53). { rewrite <- abs_IZR. change (bpow radix2 53) with (IZR (2 ^ 53)). now apply IZR_le. }
  apply (rnd64_abs_le _ 53) in B; [|lia]. rewrite Rlt_bool_true in Q by (apply Rle_lt_trans with (1 := B); apply bpow_lt; lia).
  destruct Q as (Q1 & Q2 & _). split; auto. rewrite Q1. apply Rle_trans with (1 := B). apply bpow_le. lia.
Qed.

Lemma rows_moderate (zss : list (list Z)) : forallb (forallb (fun z => Z.abs z <=? 2 ^ 53)%Z) zss = true ->
  forall r, In r (map (map b64_of_Z) zss) -> moderate r.
Proof.
  intros H r Hr x Hx. apply in_map_iff in Hr as (zs & <- & Hz). apply in_map_iff in Hx as (z & <- & Hz').
  rewrite forallb_forall in H. specialize (H _ Hz). rewrite forallb_forall in H. specialize (H _ Hz'). apply small_moderate. now apply Z.leb_le.
Qed.
