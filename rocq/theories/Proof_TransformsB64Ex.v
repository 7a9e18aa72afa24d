From Coq Require Import List Arith Bool Reals ZArith Lia Lra.
From Flocq Require Import Core BinarySingleNaN.
From Verif Require Import Base BaseLemmas Num NumF B64Lemmas Linalg LinalgR Spec_Calc CalcR Spec_B64 B64Err Proof_ScoreB64 Model_Transforms Spec_Transforms Spec_TransformsB64 Proof_MinMax Proof_TransformsB64 Proof_NormB64.
Import ListNotations.
Local Open Scope R_scope.

Lemma of_nat_real (n : nat) : (Z.of_nat n <= 2 ^ 53)%Z -> is_finite (b64_of_Z (Z.of_nat n)) = true /\ B2R (b64_of_Z (Z.of_nat n)) = INR n.
Proof. intros H. exact (nofnat_real n H). Qed.
Lemma z0 : is_finite (b64_of_Z 0) = true /\ B2R (b64_of_Z 0) = 0. Proof. exact (of_nat_real 0 ltac:(lia)). Qed.
Lemma z1 : is_finite (b64_of_Z 1) = true /\ B2R (b64_of_Z 1) = 1. Proof. exact (of_nat_real 1 ltac:(lia)). Qed.
Lemma z2 : is_finite (b64_of_Z 2) = true /\ B2R (b64_of_Z 2) = 2. Proof. destruct (of_nat_real 2 ltac:(lia)) as [F E]. split; [exact F|]. rewrite <- (E : B2R (b64_of_Z 2) = INR 2) || idtac. change (B2R (b64_of_Z 2)) with (B2R (b64_of_Z (Z.of_nat 2))). rewrite E. cbn. lra. Qed.
Lemma z3 : is_finite (b64_of_Z 3) = true /\ B2R (b64_of_Z 3) = 3. Proof. destruct (of_nat_real 3 ltac:(lia)) as [F E]. split; [exact F|]. change (B2R (b64_of_Z 3)) with (B2R (b64_of_Z (Z.of_nat 3))). rewrite E. cbn. lra. Qed.
Lemma z4 : is_finite (b64_of_Z 4) = true /\ B2R (b64_of_Z 4) = 4. Proof. destruct (of_nat_real 4 ltac:(lia)) as [F E]. split; [exact F|]. change (B2R (b64_of_Z 4)) with (B2R (b64_of_Z (Z.of_nat 4))). rewrite E. cbn. lra. Qed.
Lemma z5 : is_finite (b64_of_Z 5) = true /\ B2R (b64_of_Z 5) = 5. Proof. destruct (of_nat_real 5 ltac:(lia)) as [F E]. split; [exact F|]. change (B2R (b64_of_Z 5)) with (B2R (b64_of_Z (Z.of_nat 5))). rewrite E. cbn. lra. Qed.

Definition marks : matrix B64 := Mat [[b64_of_Z 1]; [b64_of_Z 2]; [b64_of_Z 5]] 1.
Lemma marks_cells : B2R (cell marks 0 0) = 1 /\ B2R (cell marks 1 0) = 2 /\ B2R (cell marks 2 0) = 5.
Proof. cbn [cell marks mrows nth]. destruct z1, z2, z5. auto. Qed.
Lemma marks_min : is_col_min (real_mat marks) 0 1.
Proof.
  destruct marks_cells as (C0 & C1 & C2). split; [exists 0%nat; split; [cbn; lia|rewrite cell_real; auto]|].
  intros i Hi. rewrite cell_real. rewrite real_mat_rows in Hi. cbn in Hi. destruct i as [|[|[|i]]]; try lia; lra.
Qed.
Lemma marks_max : is_col_max (real_mat marks) 0 5.
Proof.
  destruct marks_cells as (C0 & C1 & C2). split; [exists 2%nat; split; [cbn; lia|rewrite cell_real; auto]|].
  intros i Hi. rewrite cell_real. rewrite real_mat_rows in Hi. cbn in Hi. destruct i as [|[|[|i]]]; try lia; lra.
Qed.
Lemma pow_ge a b : (0 <= a)%Z -> (a <= b)%Z -> IZR (2 ^ a) <= bpow radix2 b.
Proof. intros Ha H. rewrite (IZR_Zpower radix2) by auto. now apply bpow_le. Qed.
Lemma marks_ok : let m := marks in let a := b64_of_Z 0 in let b := b64_of_Z 1 in
  is_finite a = true /\ is_finite b = true /\ B2R a <= B2R b /\ mwf m /\ (0 < nrows m)%nat /\ scalable (B2R a) (B2R b) m /\ recoverable (B2R a) (B2R b) m /\
  (forall j, (j < mcols m)%nat -> varies (real_mat m) j) /\ is_col_min (real_mat m) 0 1 /\ is_col_max (real_mat m) 0 5.
Proof.
  cbv zeta. destruct z0 as [F0 E0], z1 as [F1 E1]. rewrite E0, E1. pose proof marks_min as Mn. pose proof marks_max as Mx.
  pose proof (pow_ge 0 900 ltac:(lia) ltac:(lia)) as P9. pose proof (pow_ge 3 1000 ltac:(lia) ltac:(lia)) as P10. change (2 ^ 0)%Z with 1%Z in P9. change (2 ^ 3)%Z with 8%Z in P10.
  assert (U : forall j lo hi, (j < mcols marks)%nat -> is_col_min (real_mat marks) j lo -> is_col_max (real_mat marks) j hi -> lo = 1 /\ hi = 5).
  { intros j lo hi Hj Hl Hh. cbn in Hj. assert (j = 0%nat) by lia. subst j. split; [apply (is_min_unique _ _ _ _ Hl Mn)|apply (is_max_unique _ _ _ _ Hh Mx)]. }
  split; auto. split; auto. split; [lra|]. split; [repeat constructor|]. split; [cbn; lia|].
  split.
  { split; [rewrite Rabs_R0; lra|]. split; [rewrite Rabs_R1; lra|]. split.
    - intros i j Hi Hj. cbn in Hi, Hj. assert (j = 0%nat) by lia. subst j. destruct marks_cells as (C0 & C1 & C2).
      destruct i as [|[|[|i]]]; try lia; cbn [cell marks mrows nth] in *; (split; [first [apply z1|apply z2|apply z5]|]); [rewrite C0|rewrite C1|rewrite C2]; apply Rabs_le; lra.
    - intros j lo hi Hj Hl Hh. destruct (U j lo hi Hj Hl Hh) as [-> ->]. rewrite (Rabs_right 1), (Rabs_right 5), Rmax_right by lra. lra. }
  split.
  { intros j lo hi Hj Hl Hh. destruct (U j lo hi Hj Hl Hh) as [-> ->]. rewrite Rabs_R0, Rabs_R1. split; [|lra].
    apply Rle_trans with (bpow radix2 (-2)); [apply bpow_le; lia|]. cbn. lra. }
  split; auto. intros j Hj. cbn in Hj. assert (j = 0%nat) by lia. subst j. apply (varies_iff _ _ _ _ Mn Mx). lra.
Qed.
Lemma marks_order : exists sc out st out', minmax_fit (b64_of_Z 0) (b64_of_Z 1) marks = Ok sc /\ minmax_transform sc marks = Ok out /\
  standardizer_fit (b64_of_Z 0) (b64_of_Z 1) marks = Ok st /\ standardizer_transform st marks = Ok out' /\
  is_finite (cell out 0 0) = true /\ is_finite (cell out 1 0) = true /\ is_finite (cell out' 0 0) = true /\ is_finite (cell out' 1 0) = true /\
  B2R (cell marks 0 0) <= B2R (cell marks 1 0).
Proof.
  destruct marks_ok as (F0 & F1 & L & W & N & S & _ & V & Mn & Mx). destruct (minmax_b64 _ _ _ F0 F1 L W N S V) as (sc & out & E1 & E2 & _ & _ & _ & Q).
  exists sc, out.
  assert (ST : standardizer_fit (b64_of_Z 0) (b64_of_Z 1) marks =
    Ok {| std_means := col_mean marks; std_variances := col_var marks; std_mean := b64_of_Z 0; std_stdev := b64_of_Z 1 |}).
  { unfold standardizer_fit. change (nrows marks <=? 1)%nat with false.
    replace (existsb (fun x : B64 => negb (nfinite x)) (col_mean marks)) with false by (vm_compute; reflexivity). reflexivity. }
  eexists. eexists. split; [exact E1|]. split; [exact E2|]. split; [exact ST|]. split; [reflexivity|].
  split; [apply (Q 0%nat 0%nat 1 5); auto; cbn; lia|]. split; [apply (Q 1%nat 0%nat 1 5); auto; cbn; lia|].
  split; [vm_compute; reflexivity|]. split; [vm_compute; reflexivity|].
  destruct marks_cells as (C0 & C1 & _). rewrite C0, C1. lra.
Qed.

Lemma three_four : measurable [b64_of_Z 3; b64_of_Z 4].
Proof.
  destruct z3 as [F3 E3], z4 as [F4 E4]. pose proof (pow_ge 2 500 ltac:(lia) ltac:(lia)) as P. change (2 ^ 2)%Z with 4%Z in P.
  split; [|split].
  - intros x [<-|[<-|[]]]; split; auto; rewrite ?E3, ?E4; apply Rabs_le; lra.
  - unfold moderate_dim; cbn; lia.
  - cbn [real_vec map]. rewrite E3, E4. unfold row_len; cbn [length sumR nth]. replace (0 + 3 ^ 2 + 4 ^ 2) with (5 * 5) by ring. rewrite sqrt_square by lra.
    apply Rle_trans with (bpow radix2 0); [apply bpow_le; lia|]. cbn. lra.
Qed.
Lemma bin_real e m k : B2SF (b64_bin 1 e) = SpecFloat.S754_finite false m k -> Zpos m = (2 ^ (e - k))%Z -> (k <= e)%Z -> B2R (b64_bin 1 e) = bpow radix2 e.
Proof.
  intros H M K. rewrite <- SF2R_B2SF, H. unfold SF2R, F2R; cbn [Fnum Fexp cond_Zopp]. rewrite M, (IZR_Zpower radix2) by lia. rewrite <- bpow_plus. f_equal. lia.
Qed.
Lemma one_len (x : B64) v : B2R x = v -> 0 <= v -> row_len (real_vec [x]) = v.
Proof. intros E H. cbn [real_vec map]. rewrite E. unfold row_len; cbn [length sumR nth]. replace (0 + v ^ 2) with (v * v) by ring. now apply sqrt_square. Qed.
Lemma tiny_and_huge :
  normalize norm2 (Mat [[b64_bin 1 (-600)]] 1) = Ok (Mat [[b64_bin 1 (-600)]] 1) /\ row_len (real_vec [b64_bin 1 (-600)]) = bpow radix2 (-600) /\
  normalize norm2 (Mat [[b64_bin 1 600]] 1) = Err InvalidData /\ row_len (real_vec [b64_bin 1 600]) = bpow radix2 600.
Proof.
  split; [|split; [|split]].
  - unfold normalize. cbn [mrows rmap]. unfold normalize_row.
    replace (nfinite (norm2 [b64_bin 1 (-600)])) with true by (vm_compute; reflexivity). replace (neqb (norm2 [b64_bin 1 (-600)]) nzero) with true by (vm_compute; reflexivity).
    reflexivity.
  - apply one_len; [|apply bpow_ge_0]. apply (bin_real (-600) (2 ^ 52) (-652)); [vm_compute; reflexivity|reflexivity|lia].
  - unfold normalize. cbn [mrows rmap]. unfold normalize_row.
    replace (nfinite (norm2 [b64_bin 1 600])) with false by (vm_compute; reflexivity). reflexivity.
  - apply one_len; [|apply bpow_ge_0]. apply (bin_real 600 (2 ^ 52) 548); [vm_compute; reflexivity|reflexivity|lia].
Qed.
