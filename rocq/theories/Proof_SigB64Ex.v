(** * A correctly rounded exponential meets the requirements, and a batch with NaN cost *)
From Coq Require Import List Arith Bool Reals ZArith Lia Lra.
From Flocq Require Import Core BinarySingleNaN.
From Verif Require Import Base BaseLemmas Num NumF NumFn B64Lemmas Linalg LinalgR Model_Optim Model_Cost Model_Toolkit Model_Regression Spec_B64 B64Err Proof_ScoreB64 Proof_KernelB64 Proof_CellB64 Proof_ErrB64 Proof_B64Ex Spec_SigB64 Proof_SigB64.
Import ListNotations.
Local Open Scope R_scope.

Lemma near_rounds v : 0 <= v -> is_nan (b64_near v) = false /\ phi (b64_near v) = fr v.
Proof.
  intros Hv. assert (B : 0 <= rnd64 v) by (rewrite <- rnd64_0; now apply rnd64_le).
  pose proof (binary_normalize_correct 53 1024 prec64 emax64 mode_NE (ZnearestE (scaled_mantissa radix2 (SpecFloat.fexp 53 1024) v)) (cexp radix2 (SpecFloat.fexp 53 1024) v) false) as Q. cbv zeta in Q.
  change (F2R (Float radix2 (ZnearestE (scaled_mantissa radix2 (SpecFloat.fexp 53 1024) v)) (cexp radix2 (SpecFloat.fexp 53 1024) v))) with (rnd64 v) in Q.
  change (round radix2 (SpecFloat.fexp 53 1024) (round_mode mode_NE) (rnd64 v)) with (rnd64 (rnd64 v)) in Q. fold top64 in Q.
  assert (I : rnd64 (rnd64 v) = rnd64 v). { unfold rnd64 at 1. apply round_generic; [apply valid_rnd_N|]. apply generic_format_round. apply fexp_correct. exact prec64. apply valid_rnd_N. }
  rewrite I in Q. destruct (Rlt_bool_spec (Rabs (rnd64 v)) top64) as [L|L].
  - destruct Q as (Q1 & Q2 & _). split; [now apply finite_nan|]. rewrite phi_finite by auto. now rewrite fr_in.
  - apply phi_overflow in Q. destruct Q as [Q1 Q2]. split; auto. change (phi (b64_near v) = fr v) with (phi (binary_normalize 53 1024 prec64 emax64 mode_NE (ZnearestE (scaled_mantissa radix2 (SpecFloat.fexp 53 1024) v)) (cexp radix2 (SpecFloat.fexp 53 1024) v) false) = fr v).
    rewrite Q2. rewrite (Rlt_bool_false _ _ B). symmetry. apply fr_pos_over; auto. lra.
Qed.
Lemma exp_phi (x : B64) : is_nan x = false -> is_nan (b64_exp x) = false /\ (is_finite x = true -> phi (b64_exp x) = fr (exp (B2R x))) /\
  (is_finite x = false -> phi x < 0 -> phi (b64_exp x) = 0) /\ (is_finite x = false -> 0 < phi x -> phi (b64_exp x) = top64).
Proof.
  intros N. pose proof top64_pos. destruct x as [s|[|]| |s m e b]; try discriminate.
  - destruct (near_rounds (exp (B2R (B754_zero s : B64)))) as [A B]; [apply Rlt_le, exp_pos|]. split; auto. split; auto. split; discriminate.
  - cbn. repeat split; try discriminate; lra.
  - cbn. repeat split; try discriminate; lra.
  - destruct (near_rounds (exp (B2R (B754_finite s m e b : B64)))) as [A B]; [apply Rlt_le, exp_pos|]. split; auto. split; auto. split; discriminate.
Qed.
Lemma inf_phi (x : B64) : is_nan x = false -> is_finite x = false -> phi x = top64 \/ phi x = - top64.
Proof. destruct x as [s|[|]| |s m e b]; try discriminate; cbn; auto. Qed.
Lemma fin_phi (x : B64) : is_finite x = true -> - top64 < phi x < top64.
Proof. intros F. rewrite phi_finite by auto. pose proof (abs_B2R_lt_emax 53 1024 x) as Q. fold top64 in Q. apply Rabs_def2 in Q. lra. Qed.
Lemma exp_le a b : a <= b -> exp a <= exp b.
Proof. intros [H|H]; [left; now apply exp_increasing|rewrite H; lra]. Qed.
Lemma b64_exp_sound : sound_exp b64_exp.
Proof.
  pose proof top64_pos as T. split; [|split].
  - intros x N. destruct (exp_phi x N) as (A & B & C & D). apply phi_leb; auto. change (phi (B754_zero false : B64)) with 0. destruct (is_finite x) eqn:F.
    + rewrite B by auto. apply fr_nonneg. apply Rlt_le, exp_pos.
    + destruct (inf_phi x N F) as [E|E]; [rewrite D by (auto; lra)|rewrite C by (auto; lra)]; lra.
  - intros x y L. destruct (leb_nan _ _ L) as [Nx Ny]. apply phi_leb in L; auto. destruct (exp_phi x Nx) as (A & B & C & D). destruct (exp_phi y Ny) as (A' & B' & C' & D'). apply phi_leb; auto.
    destruct (is_finite x) eqn:Fx, (is_finite y) eqn:Fy.
    + rewrite B, B' by auto. rewrite !phi_finite in L by auto. apply fr_le. now apply exp_le.
    + destruct (inf_phi y Ny Fy) as [E|E].
      * rewrite D' by (auto; lra). apply phi_bounds.
      * exfalso. pose proof (fin_phi x Fx). lra.
    + destruct (inf_phi x Nx Fx) as [E|E].
      * exfalso. pose proof (fin_phi y Fy). lra.
      * rewrite C by (auto; lra). rewrite B' by auto. apply fr_nonneg. apply Rlt_le, exp_pos.
    + destruct (inf_phi x Nx Fx) as [E|E], (inf_phi y Ny Fy) as [E'|E']; rewrite ?(D ltac:(auto) ltac:(lra)), ?(C ltac:(auto) ltac:(lra)), ?(D' ltac:(auto) ltac:(lra)), ?(C' ltac:(auto) ltac:(lra)); lra.
  - exact (proj2 exp_good).
Qed.
Lemma b64_exp_accurate : accurate_exp (bpow radix2 (-53)) b64_exp.
Proof.
  intros x F. destruct (exp_phi x (finite_nan x F)) as (A & B & _). specialize (B F). set (E := exp (B2R x)) in *. assert (P : 0 < E) by apply exp_pos. clearbody E. split.
  - intros Fe. rewrite phi_finite in B by auto. pose proof (rnd_err_gen E) as R. rewrite (Rabs_right E) in R by lra.
    assert (Eq : B2R (b64_exp x) = rnd64 E).
    { destruct (Rlt_dec (Rabs (rnd64 E)) top64) as [L|L]; [rewrite B; now apply fr_in|]. rewrite (fr_pos_over E L) in B by lra.
      pose proof (abs_B2R_lt_emax 53 1024 (b64_exp x)) as Q. fold top64 in Q. rewrite B in Q. rewrite Rabs_right in Q by (generalize top64_pos; lra). lra. }
    rewrite Eq. eapply Rle_trans; [exact R|]. unfold u64. apply Rplus_le_compat_l. unfold h64. apply bpow_le. lia.
  - intros Fe. destruct (inf_phi _ A Fe) as [Q|Q].
    + split; [destruct (b64_exp x) as [s|[|]| |s m e b]; try discriminate; auto; exfalso; cbn [phi] in Q; generalize top64_pos; lra|].
      apply Rnot_lt_le. intros L. rewrite B in Q.
      assert (S : rnd64 E <= bpow radix2 1000). { replace (bpow radix2 1000) with (rnd64 (bpow radix2 1000)); [apply rnd64_le; lra|]. unfold rnd64. apply round_generic; [apply valid_rnd_N|]. apply generic_format_bpow. cbn. lia. }
      assert (T : bpow radix2 1000 < top64) by (apply bpow_lt; lia). assert (P0 : 0 <= rnd64 E) by (rewrite <- rnd64_0; apply rnd64_le; lra).
      rewrite fr_in in Q by (rewrite Rabs_right; lra). lra.
    + exfalso. rewrite B in Q. pose proof (fr_nonneg E ltac:(lra)). generalize top64_pos; lra.
Qed.
Lemma unit_small : 0 <= bpow radix2 (-53) <= / 1024.
Proof. split; [apply bpow_ge_0|]. apply (proj2 u_small). Qed.

(** One row 1, target 1, weight 40. *)
Lemma nan_batch : rmat_vec (F := B64) (Mat [[nonev]] 1) [b64_of_Z 40] = Ok [b64_of_Z 40] /\ Bleb (b64_of_Z 40) (nth 0 [b64_of_Z 40] nzero) = true /\ is_finite (b64_of_Z 40) = true.
Proof.
  split; [|split; vm_compute; reflexivity].
  unfold rmat_vec, rassert. cbn [length mcols Nat.eqb]. f_equal. unfold mat_vec. cbn [map mrows]. f_equal. apply B2SF_inj. vm_compute. reflexivity.
Qed.
Definition libm_ex : NumFn B64 := {| nexp := b64_exp; nln := fun x => if Beqb x (B754_zero false) then B754_infinity true else x; ntanh := fun x => x; npowf := fun x _ => x; npi := b64_of_Z 3 |}.
Lemma libm_ln : @nln B64 libm_ex (B754_zero false) = B754_infinity true. Proof. reflexivity. Qed.
Lemma nan_batch_cost : exists g, @log_compute_grad B64 NumB64 libm_ex (Mat [[nonev]] 1) [nonev] [b64_of_Z 40] = Ok (B754_nan, g).
Proof.
  destruct nan_batch as (E & L & _). destruct (@log_compute_grad B64 NumB64 libm_ex (Mat [[nonev]] 1) [nonev] [b64_of_Z 40]) as [[c g]|k|] eqn:H.
  - exists g. do 2 f_equal. exact (@confident_row_nan libm_ex b64_exp_sound _ unit_small b64_exp_accurate _ [nonev] _ _ 0%nat c g libm_ln E ltac:(cbn; lia) L eq_refl H).
  - unfold log_compute_grad in H. rewrite E in H. cbn [rbind map ce_cost_vec rassert length Nat.eqb rvsub vsub map2 rmat_vec transpose mcols nrows mrows seq] in H. discriminate.
  - unfold log_compute_grad in H. rewrite E in H. cbn [rbind map ce_cost_vec rassert length Nat.eqb rvsub vsub map2 rmat_vec transpose mcols nrows mrows seq] in H. discriminate.
Qed.
