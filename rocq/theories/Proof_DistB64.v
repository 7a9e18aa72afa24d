(** * Binary64 distances against the true ones *)
From Coq Require Import List Arith Bool Reals ZArith Lia Lra.
From Flocq Require Import Core BinarySingleNaN.
From Verif Require Import Base Num NumF B64Lemmas Linalg LinalgR Spec_Calc Model_KNN Spec_KNN Model_KMeans Spec_KMeans Spec_B64 B64Err Proof_ScoreB64 Proof_KernelB64.
Import ListNotations.
Local Open Scope R_scope.

Lemma gamma p : INR p * u64 <= / 2 -> (1 + u64) ^ p - 1 <= 2 * INR p * u64.
Proof.
  pose proof u64_pos as U. induction p as [|p IH]; intros H; [cbn; lra|]. rewrite S_INR in *. cbn [pow]. pose proof (pos_INR p).
  assert (K : INR p * u64 <= / 2) by lra. specialize (IH K). assert ((1 + u64) * (1 + u64) ^ p <= (1 + u64) * (1 + 2 * INR p * u64)) by (apply Rmult_le_compat_l; lra).
  assert (2 * (INR p * u64) * u64 <= u64) by (replace u64 with (1 * u64) at 3 by ring; apply Rmult_le_compat_r; lra). lra.
Qed.

(** ** Squared differences *)
Definition sqs (a b : list B64) : list B64 := map2 (fun x y => nmul (nsub x y) (nsub x y)) a b.
Definition rsqs (a b : list B64) : list R := map2 (fun x y => (B2R x - B2R y) ^ 2) a b.
Lemma sqdist_sqs (a b : list B64) : Model_KMeans.sqdist a b = vsum (sqs a b).
Proof. unfold Model_KMeans.sqdist, velemul, vsub, sqs. f_equal. revert b. induction a as [|x a IH]; intros [|y b]; cbn; auto. now rewrite IH. Qed.
Lemma sub_err (x y : B64) : is_finite x = true -> is_finite y = true -> is_finite (nsub x y) = true ->
  Rabs (B2R (nsub x y) - (B2R x - B2R y)) <= u64 * Rabs (B2R x - B2R y).
Proof.
  intros Fx Fy F. rewrite (finite_rnd _ _ (sub_rounds x y Fx Fy) F). unfold Rminus. rewrite <- B2R_Bopp. apply rnd_err_add.
Qed.
Lemma sq_err (x y : B64) : is_finite (nmul (nsub x y) (nsub x y)) = true ->
  err 3 h64 (B2R (nmul (nsub x y) (nsub x y))) ((B2R x - B2R y) ^ 2) ((B2R x - B2R y) ^ 2).
Proof.
  intros F. destruct (nmul_finite_inv _ _ F) as [F1 _]. destruct (nsub_finite_inv _ _ F1) as [Fx Fy].
  pose proof (sub_err x y Fx Fy F1) as E. rewrite (finite_rnd _ _ (mul_rounds _ _ F1 F1) F). set (d := B2R (nsub x y)) in *. set (t := B2R x - B2R y) in *.
  pose proof u64_pos as U. assert (A : err 2 0 (d * d) (t ^ 2) (t ^ 2)).
  { split; [rewrite Rabs_right; [lra|apply Rle_ge, pow2_ge_0]|]. replace (d * d - t ^ 2) with ((d - t) * (d - t + 2 * t)) by ring. rewrite Rabs_mult.
    assert (B : Rabs (d - t + 2 * t) <= (u64 + 2) * Rabs t).
    { apply Rle_trans with (1 := Rabs_triang _ _). rewrite (Rabs_mult 2), (Rabs_right 2) by lra. lra. }
    rewrite <- (pow2_abs t). pose proof (Rabs_pos t). pose proof (Rabs_pos (d - t)). pose proof (Rabs_pos (d - t + 2 * t)).
    apply Rle_trans with ((u64 * Rabs t) * ((u64 + 2) * Rabs t)); [apply Rmult_le_compat; auto|]. cbn [pow]. lra. }
  eapply err_mono; [| |apply (err_round _ _ _ _ _ (Rle_refl 0) A)]; [lia|lra].
Qed.
Lemma sqs_errs (a b : list B64) : Forall (fun x => is_finite x = true) (sqs a b) -> errs 3 h64 (sqs a b) (rsqs a b) (rsqs a b).
Proof.
  revert b. induction a as [|x a IH]; intros [|y b] H; try constructor; cbn [sqs map2] in H; inversion H; subst; [now apply sq_err|now apply IH].
Qed.
Lemma map2_length {A B C} (f : A -> B -> C) a b : length a = length b -> length (map2 f a b) = length a.
Proof. revert b. induction a as [|x a IH]; intros [|y b] H; cbn in *; try discriminate; auto. Qed.
Lemma sumsq_err n (a b : list B64) : length a = n -> length b = n -> is_finite (vsum (sqs a b)) = true ->
  err (3 + n) (INR n * h64 * (1 + u64) ^ n) (B2R (vsum (sqs a b))) (rsum (rsqs a b)) (rsum (rsqs a b)).
Proof.
  intros La Lb F. destruct (fold_finite _ _ F) as [_ FF]. pose proof (vsum_err 3 h64 _ _ _ (Rlt_le _ _ h64_pos) (sqs_errs a b FF) F) as Q.
  assert (E : length (sqs a b) = n) by (unfold sqs; rewrite map2_length; congruence). now rewrite E in Q.
Qed.
Lemma euclid_sq n (a b : list B64) : length a = n -> length b = n -> euclid n (map B2R a) (map B2R b) = sqrt (rsum (rsqs a b)).
Proof.
  intros La Lb. unfold euclid. f_equal. unfold rsqs.
  revert a b La Lb. induction n as [|n IH]; intros [|x a] [|y b] La Lb; try discriminate; auto. cbn [map2 seq map nth rsum fold_right]. f_equal.
  injection La as La. injection Lb as Lb. rewrite <- (IH a b La Lb). f_equal. rewrite <- seq_shift, map_map. apply map_ext. reflexivity.
Qed.
Lemma rsum_nonneg (a b : list B64) : 0 <= rsum (rsqs a b).
Proof. revert b. induction a as [|x a IH]; intros [|y b]; cbn; try lra. specialize (IH b). unfold rsqs in IH. pose proof (pow2_ge_0 (B2R x - B2R y)). cbn in *. lra. Qed.

(** ** No overflow for moderate entries *)
Lemma rnd64_bpow e : (-1074 <= e)%Z -> rnd64 (bpow radix2 e) = bpow radix2 e.
Proof.
  intros H. apply round_generic; [apply valid_rnd_N|]. apply generic_format_bpow. change (SpecFloat.fexp 53 1024) with (FLT_exp (-1074) 53). unfold FLT_exp. lia.
Qed.
Lemma rnd64_abs_le v e : (-1074 <= e)%Z -> Rabs v <= bpow radix2 e -> Rabs (rnd64 v) <= bpow radix2 e.
Proof.
  intros He H. apply Rabs_le_inv in H. apply Rabs_le. rewrite <- (rnd64_bpow e He) at 2. split; [|now apply rnd64_le].
  rewrite <- (rnd64_bpow e He). unfold rnd64 at 1. rewrite <- round_NE_opp. apply (rnd64_le (- bpow radix2 e)). lra.
Qed.
Lemma sq_moderate (x y : B64) : is_finite x = true /\ Rabs (B2R x) <= bpow radix2 500 -> is_finite y = true /\ Rabs (B2R y) <= bpow radix2 500 ->
  is_finite (nmul (nsub x y) (nsub x y)) = true /\ 0 <= B2R (nmul (nsub x y) (nsub x y)) <= bpow radix2 1002.
Proof.
  intros [Fx Bx] [Fy By].
  assert (D : Rabs (B2R x - B2R y) <= bpow radix2 501).
  { unfold Rminus. apply Rle_trans with (1 := Rabs_triang _ _). rewrite Rabs_Ropp. replace (bpow radix2 501) with (2 * bpow radix2 500); [lra|].
    change 2 with (bpow radix2 1) at 1. rewrite <- bpow_plus. reflexivity. }
  apply (rnd64_abs_le _ 501) in D; [|lia].
  assert (TT : bpow radix2 501 < top64) by (apply bpow_lt; lia).
  destruct (op_finite _ _ (sub_rounds x y Fx Fy)) as [F1 V1]; [lra|].
  assert (S : Rabs (B2R (nsub x y) * B2R (nsub x y)) <= bpow radix2 1002).
  { rewrite Rabs_mult, V1. change 1002%Z with (501 + 501)%Z. rewrite bpow_plus. pose proof (Rabs_pos (rnd64 (B2R x - B2R y))). apply Rmult_le_compat; auto. }
  apply (rnd64_abs_le _ 1002) in S; [|lia].
  assert (T2 : bpow radix2 1002 < top64) by (apply bpow_lt; lia).
  destruct (op_finite _ _ (mul_rounds _ _ F1 F1)) as [F2 V2]; [lra|]. split; auto. rewrite V2. split.
  - rewrite <- rnd64_0. apply rnd64_le. nra.
  - apply Rle_trans with (1 := Rle_abs _). auto.
Qed.
Lemma multiple_format k : (Z.of_nat k <= 2 ^ 20)%Z -> rnd64 (INR k * bpow radix2 1002) = INR k * bpow radix2 1002 /\ INR k * bpow radix2 1002 < top64.
Proof.
  intros H. split.
  - apply round_generic; [apply valid_rnd_N|]. change (SpecFloat.fexp 53 1024) with (FLT_exp (-1074) 53). apply generic_format_FLT.
    exists (Float radix2 (Z.of_nat k) 1002); [unfold F2R; cbn [Fnum Fexp]; now rewrite INR_IZR_INZ| |cbn; lia]. cbn [Fnum]. rewrite Z.abs_eq by lia. cbn. lia.
  - apply Rle_lt_trans with (bpow radix2 1022); [|apply bpow_lt; lia]. change 1022%Z with (20 + 1002)%Z. rewrite bpow_plus. apply Rmult_le_compat_r; [apply bpow_ge_0|].
    rewrite INR_IZR_INZ. change (bpow radix2 20) with (IZR (2 ^ 20)). now apply IZR_le.
Qed.
Lemma sum_moderate (l : list B64) : Forall (fun x => is_finite x = true /\ 0 <= B2R x <= bpow radix2 1002) l ->
  forall i a, (Z.of_nat (i + length l) <= 2 ^ 20)%Z -> is_finite a = true -> 0 <= B2R a <= INR i * bpow radix2 1002 -> is_finite (fold_left nadd l a) = true.
Proof.
  induction 1 as [|x l [Fx Bx] _ IH]; intros i a Hi Fa Ba; cbn [fold_left]; auto. cbn [length] in Hi.
  destruct (multiple_format (S i) ltac:(lia)) as [M1 M2]. rewrite S_INR in M1, M2.
  assert (B : 0 <= rnd64 (B2R a + B2R x) <= (INR i + 1) * bpow radix2 1002).
  { split; [rewrite <- rnd64_0; apply rnd64_le; lra|]. rewrite <- M1. apply rnd64_le. lra. }
  destruct (op_finite _ _ (add_rounds a x Fa Fx)) as [F1 V1]; [rewrite Rabs_right; lra|].
  apply (IH (S i)); auto; [rewrite <- Hi; lia|]. rewrite V1, S_INR. auto.
Qed.
Lemma sumsq_finite (a b : list B64) : moderate a -> moderate b -> moderate_dim (length a) -> is_finite (vsum (sqs a b)) = true.
Proof.
  intros Ma Mb Md. assert (L : forall b, (length (sqs a b) <= length a)%nat).
  { clear. induction a as [|x a IH]; intros [|y b]; unfold sqs in *; cbn [map2 length]; try lia. specialize (IH b). lia. }
  apply (sum_moderate _) with (i := 0%nat); [|specialize (L b); unfold moderate_dim in Md; lia|reflexivity|cbn; lra].
  clear Md L. revert b Mb. induction a as [|x a IH]; intros [|y b] Mb; cbn [sqs map2]; constructor.
  - apply sq_moderate; [apply Ma|apply Mb]; now left.
  - apply IH; intros z Hz; [apply Ma|apply Mb]; now right.
Qed.

(** ** Square roots *)
Lemma sqrt_finite_inv (s : B64) : is_finite (nsqrt s) = true -> is_finite s = true.
Proof. destruct s as [[|]|[|]| |[|] m e b]; cbn; auto. Qed.
Lemma sqrt_b64 (s : B64) : is_finite s = true -> 0 <= B2R s -> is_finite (nsqrt s) = true /\ B2R (nsqrt s) = rnd64 (sqrt (B2R s)).
Proof.
  intros Fs Ps. pose proof (Bsqrt_correct 53 1024 prec64 emax64 mode_NE s) as (Q1 & Q2 & _). split; auto.
  change (nsqrt s) with (Bsqrt mode_NE s). rewrite Q2. destruct s as [z|z| |z m e b]; try discriminate; auto. destruct z; auto.
  exfalso. revert Ps. apply Rlt_not_le. apply F2R_lt_0. cbn; lia.
Qed.
Lemma sqrt_err p e s S : 0 <= e -> 0 <= s -> 0 <= S -> err p e s S S -> err p (sqrt e) (sqrt s) (sqrt S) (sqrt S).
Proof.
  intros He Hs HS [_ B]. split; [rewrite Rabs_right; [lra|apply Rle_ge, R_sqrt.sqrt_pos]|]. set (g := (1 + u64) ^ p - 1) in *.
  assert (Hg : 0 <= g) by (unfold g; pose proof (pow_u_ge p); lra). apply Rabs_le_inv in B.
  pose proof (R_sqrt.sqrt_pos e) as Pe. pose proof (R_sqrt.sqrt_pos s) as Ps. pose proof (R_sqrt.sqrt_pos S) as PS.
  pose proof (sqrt_sqrt e He) as Qe. pose proof (sqrt_sqrt s Hs) as Qs. pose proof (sqrt_sqrt S HS) as QS.
  set (E := sqrt e) in *. set (x := sqrt s) in *. set (y := sqrt S) in *. clearbody E x y. rewrite <- Qe, <- Qs, <- QS in B.
  apply Rabs_le. split.
  - destruct (Rle_lt_dec (y - (g * y + E)) x) as [K|K]; [lra|]. exfalso.
    assert (K1 : 0 <= y - (g * y + E)) by lra. assert (K2 : x * x < (y - (g * y + E)) * (y - (g * y + E))) by nra.
    assert (K3 : g * y + E <= y) by lra. assert (0 <= g * y) by nra. nra.
  - destruct (Rle_lt_dec x (y + (g * y + E))) as [K|K]; [lra|]. exfalso. assert (0 <= g * y) by nra. nra.
Qed.

(** ** Distances *)
Lemma dims_gamma n : moderate_dim n -> (1 + u64) ^ (4 + n) - 1 <= bpow radix2 (-31).
Proof.
  intros H. assert (K : INR (4 + n) <= bpow radix2 21).
  { rewrite INR_IZR_INZ. change (bpow radix2 21) with (IZR (2 ^ 21)). apply IZR_le. unfold moderate_dim in H. lia. }
  assert (U : bpow radix2 21 * u64 = bpow radix2 (-32)) by (unfold u64; rewrite <- bpow_plus; reflexivity).
  pose proof u64_pos. assert (K2 : INR (4 + n) * u64 <= bpow radix2 (-32)) by (rewrite <- U; apply Rmult_le_compat_r; lra).
  assert (bpow radix2 (-32) <= / 2) by (change (/ 2) with (bpow radix2 (-1)); apply bpow_le; lia).
  pose proof (gamma (4 + n) ltac:(lra)). replace (bpow radix2 (-31)) with (2 * bpow radix2 (-32)); [lra|]. change 2 with (bpow radix2 1) at 1. rewrite <- bpow_plus. reflexivity.
Qed.
Lemma tiny_bound n : moderate_dim n -> INR n * h64 * (1 + u64) ^ n <= bpow radix2 (-1054).
Proof.
  intros H. pose proof (dims_gamma n H) as G. assert (P : (1 + u64) ^ n <= (1 + u64) ^ (4 + n)) by (apply pow_u_le; lia).
  assert (B1 : bpow radix2 (-31) <= 1) by (change 1 with (bpow radix2 0); apply bpow_le; lia).
  assert (K : INR n <= bpow radix2 20).
  { rewrite INR_IZR_INZ. change (bpow radix2 20) with (IZR (2 ^ 20)). apply IZR_le. exact H. }
  apply Rle_trans with (bpow radix2 20 * h64 * bpow radix2 1).
  - apply Rmult_le_compat; [apply Rmult_le_pos; [apply pos_INR|apply Rlt_le, h64_pos]|apply Rlt_le, Rlt_le_trans with 1; [lra|apply pow_u_ge]| |].
    + apply Rmult_le_compat_r; auto. apply Rlt_le, h64_pos.
    + change (bpow radix2 1) with 2. lra.
  - unfold h64. rewrite <- !bpow_plus. apply bpow_le. lia.
Qed.
Lemma dist_close n (a b : list B64) : length a = n -> length b = n -> moderate a -> moderate b -> moderate_dim n ->
  is_finite (dist a b) = true /\ 0 <= B2R (dist a b) /\ close_to (B2R (dist a b)) (euclid n (map B2R a) (map B2R b)).
Proof.
  intros La Lb Ma Mb Md. assert (Fs : is_finite (vsum (sqs a b)) = true) by (apply sumsq_finite; auto; now rewrite La).
  pose proof (sumsq_err n a b La Lb Fs) as E. set (s := vsum (sqs a b)) in *. change (dist a b) with (nsqrt s).
  assert (Ps : 0 <= B2R s).
  { rewrite <- phi_finite by auto. apply nneg_fold; [|apply nneg_zero]. apply Forall_forall. intros q Hq.
    destruct (fold_finite _ _ Fs) as [_ FF]. rewrite Forall_forall in FF. specialize (FF q Hq).
    assert (exists r, q = nmul r r) as [r ->].
    { clear - Hq. revert b Hq. induction a as [|x a IH]; intros [|y b] Hq; cbn in Hq; try tauto. destruct Hq as [<-|Hq]; [eexists; reflexivity|now apply (IH b)]. }
    apply nneg_sq. apply finite_nan. now apply nmul_finite_inv in FF. }
  destruct (sqrt_b64 s Fs Ps) as [F V]. split; auto. rewrite V.
  split; [rewrite <- rnd64_0; apply rnd64_le, R_sqrt.sqrt_pos|]. rewrite (euclid_sq n) by auto.
  pose proof (rsum_nonneg a b) as PS. set (S := rsum (rsqs a b)) in *.
  assert (E' : err (3 + n) (bpow radix2 (-1054)) (B2R s) S S) by (eapply err_mono; [apply le_n| |exact E]; now apply tiny_bound).
  apply sqrt_err in E'; auto; [|apply bpow_ge_0]. replace (sqrt (bpow radix2 (-1054))) with (bpow radix2 (-527)) in E'.
  2:{ symmetry. apply sqrt_lem_1; try apply bpow_ge_0. now rewrite <- bpow_plus. }
  apply err_round in E'; [|apply bpow_ge_0]. destruct E' as [_ E']. unfold close_to. pose proof (dims_gamma n Md) as G. cbn [Nat.add] in G, E'.
  eapply Rle_trans; [exact E'|]. apply Rplus_le_compat; [apply Rmult_le_compat_r; [apply R_sqrt.sqrt_pos|exact G]|].
  assert (U : u64 <= / 2) by (unfold u64; change (/ 2) with (bpow radix2 (-1)); apply bpow_le; lia).
  assert (h64 <= bpow radix2 (-529)) by (apply bpow_le; lia). pose proof (bpow_gt_0 radix2 (-529)).
  replace (bpow radix2 (-526)) with (8 * bpow radix2 (-529)) by (change 8 with (bpow radix2 3); rewrite <- bpow_plus; reflexivity).
  replace (bpow radix2 (-527)) with (4 * bpow radix2 (-529)) by (change 4 with (bpow radix2 2); rewrite <- bpow_plus; reflexivity). pose proof u64_pos. nra.
Qed.
Lemma close_compare v w d e : 0 <= d -> 0 <= e -> close_to v d -> close_to w e -> v <= w -> d <= (1 + bpow radix2 (-29)) * e + bpow radix2 (-524).
Proof.
  intros Hd He A B V. unfold close_to in *. apply Rabs_le_inv in A, B.
  replace (bpow radix2 (-29)) with (4 * bpow radix2 (-31)) by (change 4 with (bpow radix2 2); rewrite <- bpow_plus; reflexivity).
  replace (bpow radix2 (-524)) with (4 * bpow radix2 (-526)) by (change 4 with (bpow radix2 2); rewrite <- bpow_plus; reflexivity).
  assert (K : 0 < bpow radix2 (-31) <= / 4) by (split; [apply bpow_gt_0|]; change (/ 4) with (bpow radix2 (-2)); apply bpow_le; lia).
  pose proof (bpow_gt_0 radix2 (-526)) as T. set (g := bpow radix2 (-31)) in *. set (t := bpow radix2 (-526)) in *. clearbody g t.
  assert (M : (1 - g) * d <= (1 + g) * e + 2 * t) by lra.
  assert (N : (1 + g) * e + 2 * t <= (1 - g) * ((1 + 4 * g) * e + 4 * t)).
  { assert (0 <= g * e) by nra. assert (g * (g * e) <= / 4 * (g * e)) by (apply Rmult_le_compat_r; lra). assert (g * t <= / 4 * t) by (apply Rmult_le_compat_r; lra). nra. }
  apply Rmult_le_reg_l with (1 - g); lra.
Qed.
