From Coq Require Import List Arith Bool Reals ZArith Lia Lra.
From Flocq Require Import Core BinarySingleNaN.
From Verif Require Import Base Num NumF B64Lemmas Model_Score Spec_Score Spec_B64 Proof_Score.
Import ListNotations.
Local Open Scope R_scope.

Lemma nearest_rnd v : nearest v = rnd64 v.
Proof. reflexivity. Qed.

(** ** Counts *)
Lemma count_format (n : nat) : exact_count n -> rnd64 (INR n) = INR n.
Proof.
  intros H. unfold rnd64. apply round_generic; [apply valid_rnd_N|]. change (SpecFloat.fexp 53 1024) with (FLT_exp (-1074) 53).
  rewrite INR_IZR_INZ. unfold exact_count in H.
  destruct (Z.eq_dec (Z.of_nat n) (2 ^ 53)) as [E|E].
  - rewrite E. change (IZR (2 ^ 53)) with (bpow radix2 53). apply generic_format_bpow. cbv. discriminate.
  - apply generic_format_FLT. exists (Float radix2 (Z.of_nat n) 0); unfold F2R; cbn; [lra| |lia]. rewrite Z.abs_eq; lia.
Qed.
Lemma count_top (n : nat) : exact_count n -> Rabs (INR n) < top64.
Proof.
  intros H. rewrite Rabs_right by (apply Rle_ge, pos_INR). apply Rle_lt_trans with (bpow radix2 53).
  - rewrite INR_IZR_INZ. change (bpow radix2 53) with (IZR (2 ^ 53)). apply IZR_le. exact H.
  - apply bpow_lt. lia.
Qed.
Lemma nofnat_real (n : nat) : exact_count n -> is_real (nofnat n) (INR n).
Proof.
  intros H. pose proof (binary_normalize_correct 53 1024 prec64 emax64 mode_NE (Z.of_nat n) 0 false) as Q. cbv zeta in Q.
  change (round radix2 (SpecFloat.fexp 53 1024) (round_mode mode_NE)) with rnd64 in Q. fold top64 in Q.
  assert (E : F2R (Float radix2 (Z.of_nat n) 0) = INR n) by (unfold F2R; cbn; rewrite INR_IZR_INZ; lra).
  rewrite E, count_format, Rlt_bool_true in Q; auto using count_top.
  destruct Q as (Q1 & Q2 & _). split; auto.
Qed.
Lemma exact_le m n : (m <= n)%nat -> exact_count n -> exact_count m.
Proof. unfold exact_count. lia. Qed.
Lemma op_finite (r : B64) v : rounds_to r v -> Rabs (rnd64 v) < top64 -> is_real r (rnd64 v).
Proof.
  intros [H1 H2] H3. rewrite fr_in in H2; auto. assert (F : is_finite r = true).
  { destruct r as [s|s| |s m e b]; auto. cbn [phi] in H2. rewrite <- H2 in H3. destruct s; rewrite ?Rabs_Ropp, Rabs_right in H3; generalize top64_pos; lra. }
  split; auto. now rewrite <- phi_finite.
Qed.
Lemma add_count x y a b : is_real x (INR a) -> is_real y (INR b) -> exact_count (a + b) -> is_real (nadd x y) (INR (a + b)).
Proof.
  intros [F1 V1] [F2 V2] H. pose proof (add_rounds x y F1 F2) as Q. rewrite V1, V2, <- plus_INR in Q.
  rewrite <- (count_format (a + b)) by auto. apply op_finite; auto. rewrite count_format; auto using count_top.
Qed.
Lemma mul_count x y a b : is_real x (INR a) -> is_real y (INR b) -> exact_count (a * b) -> is_real (nmul x y) (INR (a * b)).
Proof.
  intros [F1 V1] [F2 V2] H. pose proof (mul_rounds x y F1 F2) as Q. rewrite V1, V2, <- mult_INR in Q.
  rewrite <- (count_format (a * b)) by auto. apply op_finite; auto. rewrite count_format; auto using count_top.
Qed.
Lemma real_eq x a b : is_real x (INR a) -> a = b -> is_real x (INR b).
Proof. now intros ? <-. Qed.
Lemma one_real : is_real nonev (INR 1).
Proof. apply (nofnat_real 1). unfold exact_count. lia. Qed.
Lemma zero_real : is_real nzero (INR 0).
Proof. split; reflexivity. Qed.

Lemma rnd64_1 : rnd64 1 = 1.
Proof. apply (count_format 1). unfold exact_count. lia. Qed.
(** Quotients of counts. *)
Lemma div_count x y a b : is_real x (INR a) -> is_real y (INR b) -> (a <= b)%nat -> (b <> 0)%nat ->
  is_real (ndiv x y) (rnd64 (INR a / INR b)) /\ 0 <= rnd64 (INR a / INR b) <= 1.
Proof.
  intros [F1 V1] [F2 V2] H Hb.
  assert (Pb : 0 < INR b) by (apply lt_0_INR; lia). assert (Pa : 0 <= INR a) by apply pos_INR. apply le_INR in H.
  assert (B : 0 <= INR a / INR b <= 1).
  { split; [apply Rmult_le_pos; auto; left; now apply Rinv_0_lt_compat|]. apply Rmult_le_reg_r with (INR b); auto.
    unfold Rdiv. rewrite Rmult_assoc, Rinv_l; lra. }
  assert (B' : 0 <= rnd64 (INR a / INR b) <= 1).
  { pose proof (rnd64_le 0 (INR a / INR b) ltac:(lra)) as P1. pose proof (rnd64_le (INR a / INR b) 1 ltac:(lra)) as P2. rewrite rnd64_0 in P1. rewrite rnd64_1 in P2. auto. }
  split; auto. pose proof (Bdiv_correct 53 1024 prec64 emax64 mode_NE x y) as Q. fold top64 in Q.
  change (round radix2 (SpecFloat.fexp 53 1024) (round_mode mode_NE)) with rnd64 in Q. rewrite V1, V2 in Q.
  rewrite Rlt_bool_true in Q by (rewrite Rabs_right by lra; apply Rle_lt_trans with 1; [lra|]; change 1 with (bpow radix2 0); apply bpow_lt; lia).
  destruct Q as (Q1 & Q2 & _); [lra|]. split; [exact (eq_trans Q2 F1)|]. exact Q1.
Qed.
Lemma div_zero x y : is_real x (INR 0) -> is_real y (INR 0) -> is_nan (ndiv x y) = true.
Proof.
  intros [F1 V1] [F2 V2]. cbn in V1, V2.
  assert (Z : forall z : B64, is_finite z = true -> B2R z = 0 -> exists s, z = B754_zero s).
  { intros [s|s| |s m e b] F V; try discriminate; [eauto|]. exfalso. revert V. cbn [B2R]. destruct s; [apply Rlt_not_eq, F2R_lt_0|apply Rgt_not_eq, F2R_gt_0]; cbn; lia. }
  destruct (Z x F1 V1) as [s ->]. destruct (Z y F2 V2) as [s' ->]. reflexivity.
Qed.

(** Two reals of the unit interval more than [2^-53] apart round to different numbers. *)
Lemma ulp_unit v : 0 <= v < 1 -> ulp radix2 (FLT_exp (-1074) 53) v <= bpow radix2 (-53).
Proof.
  intros [H1 H2]. destruct (Req_dec v 0) as [->|Z].
  - rewrite ulp_FLT_0; [|reflexivity]. apply bpow_le. lia.
  - rewrite ulp_neq_0 by auto. apply bpow_le. unfold cexp, FLT_exp.
    assert (mag radix2 v <= 0)%Z. { apply mag_le_bpow; auto. cbn. rewrite Rabs_right; lra. } lia.
Qed.
Lemma rnd_err v : 0 <= v <= 1 -> Rabs (rnd64 v - v) <= / 2 * bpow radix2 (-53).
Proof.
  intros [H1 H2]. destruct (Req_dec v 1) as [->|E].
  - rewrite rnd64_1. replace (1 - 1) with 0 by lra. rewrite Rabs_R0. apply Rmult_le_pos; [lra|apply bpow_ge_0].
  - pose proof (error_le_half_ulp radix2 (FLT_exp (-1074) 53) (fun z => negb (Z.even z)) v) as Q.
    change (round radix2 (FLT_exp (-1074) 53) ZnearestE v) with (rnd64 v) in Q. pose proof (ulp_unit v ltac:(lra)). lra.
Qed.
Lemma rnd_distinct a b : 0 <= a -> b <= 1 -> a + bpow radix2 (-53) < b -> rnd64 a < rnd64 b.
Proof.
  intros H1 H2 H3. pose proof (bpow_gt_0 radix2 (-53)). pose proof (rnd_err a ltac:(lra)) as A. pose proof (rnd_err b ltac:(lra)) as B.
  apply Rabs_le_inv in A, B. lra.
Qed.
Lemma frac_lt a b n : (a < b)%nat -> (b <= n)%nat -> (Z.of_nat n < 2 ^ 53)%Z -> rnd64 (INR a / INR n) < rnd64 (INR b / INR n).
Proof.
  intros H1 H2 H3. assert (Pn : 0 < INR n) by (apply lt_0_INR; lia).
  assert (G : bpow radix2 (-53) < / INR n).
  { change (bpow radix2 (-53)) with (/ IZR (2 ^ 53)). apply Rinv_lt_contravar.
    - apply Rmult_lt_0_compat; auto. apply IZR_lt. lia.
    - rewrite INR_IZR_INZ. now apply IZR_lt. }
  assert (K : INR a + 1 <= INR b) by (rewrite <- S_INR; apply le_INR; lia). apply le_INR in H2. pose proof (pos_INR a).
  apply rnd_distinct.
  - apply Rmult_le_pos; auto. left. now apply Rinv_0_lt_compat.
  - apply Rmult_le_reg_r with (INR n); auto. unfold Rdiv. rewrite Rmult_assoc, Rinv_l; lra.
  - apply Rlt_le_trans with ((INR a + 1) / INR n); [unfold Rdiv; lra|]. unfold Rdiv. apply Rmult_le_compat_r; auto. left. now apply Rinv_0_lt_compat.
Qed.
Lemma frac_one a n : (a <= n)%nat -> (n <> 0)%nat -> exact_count n -> (rnd64 (INR a / INR n) = 1 <-> a = n).
Proof.
  intros H1 H2 H3. assert (Pn : 0 < INR n) by (apply lt_0_INR; lia). split; intros E.
  - destruct (Nat.eq_dec a n) as [|D]; auto. exfalso. destruct (Z.eq_dec (Z.of_nat n) (2 ^ 53)) as [K|K].
    + assert (X : rnd64 (INR a / INR n) <= 1 - bpow radix2 (-53)).
      { assert (F : rnd64 (1 - bpow radix2 (-53)) = 1 - bpow radix2 (-53)).
        { unfold rnd64. apply round_generic; [apply valid_rnd_N|]. change (SpecFloat.fexp 53 1024) with (FLT_exp (-1074) 53).
          apply generic_format_FLT. exists (Float radix2 (2 ^ 53 - 1) (-53)); unfold F2R; cbn -[Z.pow]; [|lia|lia].
          change (IZR (2 ^ 53 - 1)) with (9007199254740991). change (Z.pow_pos 2 53) with (9007199254740992)%Z. lra. }
        rewrite <- F. apply rnd64_le. apply Rmult_le_reg_r with (INR n); auto. unfold Rdiv. rewrite Rmult_assoc, Rinv_l by lra.
        assert (Q : INR a + 1 <= INR n) by (rewrite <- S_INR; apply le_INR; lia).
        assert (Kn : INR n = IZR (2 ^ 53)) by (rewrite INR_IZR_INZ; now f_equal).
        assert (Kb : bpow radix2 (-53) * IZR (2 ^ 53) = 1) by (change (bpow radix2 (-53)) with (/ IZR (2 ^ 53)); apply Rinv_l, not_0_IZR; lia).
        rewrite Kn in *. lra. }
      pose proof (bpow_gt_0 radix2 (-53)). lra.
    + pose proof (frac_lt a n n ltac:(lia) ltac:(lia) ltac:(unfold exact_count in H3; lia)) as Q. unfold Rdiv in Q at 2. rewrite Rinv_r, rnd64_1 in Q by lra. lra.
  - subst. unfold Rdiv. rewrite Rinv_r by lra. apply rnd64_1.
Qed.
Lemma frac_zero a n : (a <= n)%nat -> (n <> 0)%nat -> exact_count n -> (rnd64 (INR a / INR n) = 0 <-> a = 0%nat).
Proof.
  intros H1 H2 H3. assert (Pn : 0 < INR n) by (apply lt_0_INR; lia). split; intros E.
  - destruct (Nat.eq_dec a 0) as [|D]; auto. exfalso.
    assert (X : bpow radix2 (-53) <= rnd64 (INR a / INR n)).
    { assert (F : rnd64 (bpow radix2 (-53)) = bpow radix2 (-53)).
      { unfold rnd64. apply round_generic; [apply valid_rnd_N|]. apply generic_format_bpow. cbv. discriminate. }
      rewrite <- F. apply rnd64_le. apply Rmult_le_reg_r with (INR n); auto. unfold Rdiv. rewrite Rmult_assoc, Rinv_l by lra.
      assert (Q : 1 <= INR a) by (apply (le_INR 1); lia).
      apply Rle_trans with 1; [|lra]. change (bpow radix2 (-53)) with (/ IZR (2 ^ 53)). apply Rmult_le_reg_l with (IZR (2 ^ 53)); [apply IZR_lt; lia|].
      rewrite <- Rmult_assoc, Rinv_r by (apply not_0_IZR; lia). rewrite Rmult_1_r, Rmult_1_l, INR_IZR_INZ. now apply IZR_le. }
    pose proof (bpow_gt_0 radix2 (-53)). lra.
  - subst. cbn. unfold Rdiv. rewrite Rmult_0_l. apply rnd64_0.
Qed.
Lemma real_ltb x y a b : is_real x a -> is_real y b -> (b64_ltb x y = true <-> a < b).
Proof. intros [F1 V1] [F2 V2]. rewrite phi_ltb by (now apply finite_nan). rewrite !phi_finite by auto. now rewrite V1, V2. Qed.

(** ** Accuracy *)
Section Acc.
  Context {T : Type} (eqb : T -> T -> bool).
  Lemma accuracy_b64 (os ts : list T) : length os = length ts -> os <> [] -> exact_count (length os) ->
    exists a, accuracy (F := B64) eqb os ts = Ok a /\ rounded_ratio a (count2 eqb os ts) (length os) /\
      ((forall x y, eqb x y = true <-> x = y) -> (B2R a = 1 <-> os = ts)).
  Proof.
    intros H Hne Hx. unfold accuracy. rewrite H, Nat.eqb_refl, <- H. cbn [rassert]. cbv zeta. rewrite filter_count2.
    pose proof (count2_le eqb os ts) as L. assert (Hl : length os <> 0%nat) by (destruct os; simpl; congruence).
    eexists. split; [reflexivity|].
    destruct (div_count _ _ _ _ (nofnat_real _ (exact_le _ _ L Hx)) (nofnat_real _ Hx) L Hl) as [[D1 D2] D3].
    unfold rounded_ratio. rewrite nearest_rnd, D2. split; [split; [lia|]|].
    - intros _. split; [split; auto|]. split; auto. split; [now apply frac_one|now apply frac_zero].
    - intros Heq. rewrite frac_one by auto. now apply count2_full.
  Qed.
  Lemma accuracy_b64_order (os os' ts : list T) : length os = length ts -> length os' = length ts -> (Z.of_nat (length ts) < 2 ^ 53)%Z ->
    ts <> [] -> exists a a', accuracy (F := B64) eqb os ts = Ok a /\ accuracy (F := B64) eqb os' ts = Ok a' /\
      (nltb a a' = true <-> (count2 eqb os ts < count2 eqb os' ts)%nat).
  Proof.
    intros H H' Hx Hne. unfold accuracy. rewrite H, H', Nat.eqb_refl. cbn [rassert]. cbv zeta. rewrite !filter_count2.
    assert (Hx' : exact_count (length ts)) by (unfold exact_count; lia).
    pose proof (count2_le eqb os ts) as L. pose proof (count2_le eqb os' ts) as L'. rewrite H in L. rewrite H' in L'.
    assert (Hl : length ts <> 0%nat) by (destruct ts; simpl; congruence).
    destruct (div_count _ _ _ _ (nofnat_real _ (exact_le _ _ L Hx')) (nofnat_real _ Hx') L Hl) as [D1 _].
    destruct (div_count _ _ _ _ (nofnat_real _ (exact_le _ _ L' Hx')) (nofnat_real _ Hx') L' Hl) as [D2 _].
    do 2 eexists. split; [reflexivity|]. split; [reflexivity|]. change (@nltb B64 NumB64) with b64_ltb. rewrite (real_ltb _ _ _ _ D1 D2).
    split; [|intros; now apply frac_lt]. intros K. destruct (le_lt_dec (count2 eqb os' ts) (count2 eqb os ts)) as [E|]; auto. exfalso.
    apply Rlt_not_le in K. apply K. apply rnd64_le. apply Rmult_le_compat_r; [left; apply Rinv_0_lt_compat, lt_0_INR; lia|]. now apply le_INR.
  Qed.

  Hypothesis Heq : forall x y, eqb x y = true <-> x = y.
  Variable zero one : T.
  Hypothesis H01 : zero <> one.
  Notation TP' := (TP eqb one). Notation FP' := (FP eqb zero one). Notation FN' := (FN eqb zero one).

  Lemma count_sum (os ts : list T) : (TP' os ts + FP' os ts + FN' os ts <= length os)%nat.
  Proof.
    unfold TP, FP, FN. revert ts. induction os as [|o os IH]; intros [|t ts]; cbn [count2 length]; try lia. specialize (IH ts).
    destruct (eqb o one) eqn:A, (eqb t one) eqn:B, (eqb o zero) eqn:C, (eqb t zero) eqn:D; cbn [andb]; try lia;
      rewrite ?Heq in *; exfalso; apply H01; congruence.
  Qed.


  Ltac ex := match goal with E : exact_count ?n |- exact_count ?m => apply exact_le with (2 := E); lia end.
  Ltac fit := first [assumption | eapply real_eq; [eassumption|lia]].
  Lemma precision_loop_b64 (os ts : list T) : length os = length ts -> two_class zero one os -> two_class zero one ts ->
    forall a b x y, is_real x (INR a) -> is_real y (INR b) -> exact_count (a + length os) -> exact_count (b + length os) ->
    exists x' y', precision_loop (F := B64) eqb zero one (combine os ts) x y = Ok (x', y') /\
      is_real x' (INR (a + (TP' os ts + FP' os ts))) /\ is_real y' (INR (b + TP' os ts)).
  Proof.
    unfold TP, FP.
    revert ts; induction os as [|o os IH]; intros [|t ts] H W1 W2 a b x y Hx Hy Ea Eb; simpl in H; try discriminate.
    - exists x, y. cbn. rewrite !Nat.add_0_r. auto.
    - cbn [combine precision_loop count2]. cbn [length] in Ea, Eb.
      assert (Wo : o = zero \/ o = one) by (apply W1; left; auto). assert (Wt : t = zero \/ t = one) by (apply W2; left; auto).
      assert (V1 : two_class zero one os) by (intros z Hz; apply W1; right; auto). assert (V2 : two_class zero one ts) by (intros z Hz; apply W2; right; auto).
      assert (E : not_two_class eqb zero one o t = false) by (now apply (not_two_class_spec eqb Heq)). rewrite E.
      assert (Hoz : eqb one zero = false) by (apply eqb_nq; auto).
      assert (Hzo : eqb zero one = false) by (apply eqb_nq; auto).
      assert (Ax : is_real (nadd x nonev) (INR (a + 1))) by (apply add_count; auto using one_real; ex).
      assert (Ay : is_real (nadd y nonev) (INR (b + 1))) by (apply add_count; auto using one_real; ex).
      destruct Wo as [->| ->], Wt as [->| ->]; rewrite ?(eqb_rf eqb Heq), ?Hoz, ?Hzo; cbn [andb];
      match goal with H1 : is_real ?x0 (INR ?a0), H2 : is_real ?y0 (INR ?b0) |- context [precision_loop eqb zero one (combine os ts) ?x0 ?y0] =>
        destruct (IH ts ltac:(lia) V1 V2 a0 b0 x0 y0 H1 H2 ltac:(ex) ltac:(ex)) as (x' & y' & L & L1 & L2) end;
      exists x', y'; (split; [exact L|]); split; fit.
  Qed.
  Lemma recall_loop_b64 (os ts : list T) : length os = length ts -> two_class zero one os -> two_class zero one ts ->
    forall a b x y, is_real x (INR a) -> is_real y (INR b) -> exact_count (a + length os) -> exact_count (b + length os) ->
    exists x' y', recall_loop (F := B64) eqb zero one (combine os ts) x y = Ok (x', y') /\
      is_real x' (INR (a + (TP' os ts + FN' os ts))) /\ is_real y' (INR (b + TP' os ts)).
  Proof.
    unfold TP, FN.
    revert ts; induction os as [|o os IH]; intros [|t ts] H W1 W2 a b x y Hx Hy Ea Eb; simpl in H; try discriminate.
    - exists x, y. cbn. rewrite !Nat.add_0_r. auto.
    - cbn [combine recall_loop count2]. cbn [length] in Ea, Eb.
      assert (Wo : o = zero \/ o = one) by (apply W1; left; auto). assert (Wt : t = zero \/ t = one) by (apply W2; left; auto).
      assert (V1 : two_class zero one os) by (intros z Hz; apply W1; right; auto). assert (V2 : two_class zero one ts) by (intros z Hz; apply W2; right; auto).
      assert (E : not_two_class eqb zero one o t = false) by (now apply (not_two_class_spec eqb Heq)). rewrite E.
      assert (Hoz : eqb one zero = false) by (apply eqb_nq; auto).
      assert (Hzo : eqb zero one = false) by (apply eqb_nq; auto).
      assert (Ax : is_real (nadd x nonev) (INR (a + 1))) by (apply add_count; auto using one_real; ex).
      assert (Ay : is_real (nadd y nonev) (INR (b + 1))) by (apply add_count; auto using one_real; ex).
      destruct Wo as [->| ->], Wt as [->| ->]; rewrite ?(eqb_rf eqb Heq), ?Hoz, ?Hzo; cbn [andb];
      match goal with H1 : is_real ?x0 (INR ?a0), H2 : is_real ?y0 (INR ?b0) |- context [recall_loop eqb zero one (combine os ts) ?x0 ?y0] =>
        destruct (IH ts ltac:(lia) V1 V2 a0 b0 x0 y0 H1 H2 ltac:(ex) ltac:(ex)) as (x' & y' & L & L1 & L2) end;
      exists x', y'; (split; [exact L|]); split; fit.
  Qed.
  Lemma f1_loop_b64 (os ts : list T) : length os = length ts -> two_class zero one os -> two_class zero one ts ->
    forall a b c x y z, is_real x (INR a) -> is_real y (INR b) -> is_real z (INR c) ->
    exact_count (a + length os) -> exact_count (b + length os) -> exact_count (c + length os) ->
    exists x' y' z', f1_loop (F := B64) eqb zero one (combine os ts) x y z = Ok (x', y', z') /\
      is_real x' (INR (a + TP' os ts)) /\ is_real y' (INR (b + FN' os ts)) /\ is_real z' (INR (c + FP' os ts)).
  Proof.
    unfold TP, FN, FP.
    revert ts; induction os as [|o os IH]; intros [|t ts] H W1 W2 a b c x y z Hx Hy Hz Ea Eb Ec; simpl in H; try discriminate.
    - exists x, y, z. cbn. rewrite !Nat.add_0_r. auto.
    - cbn [combine f1_loop count2]. cbn [length] in Ea, Eb, Ec.
      assert (Wo : o = zero \/ o = one) by (apply W1; left; auto). assert (Wt : t = zero \/ t = one) by (apply W2; left; auto).
      assert (V1 : two_class zero one os) by (intros q Hq; apply W1; right; auto). assert (V2 : two_class zero one ts) by (intros q Hq; apply W2; right; auto).
      assert (E : not_two_class eqb zero one o t = false) by (now apply (not_two_class_spec eqb Heq)). rewrite E.
      assert (Hoz : eqb one zero = false) by (apply eqb_nq; auto).
      assert (Hzo : eqb zero one = false) by (apply eqb_nq; auto).
      assert (Ax : is_real (nadd x nonev) (INR (a + 1))) by (apply add_count; auto using one_real; ex).
      assert (Ay : is_real (nadd y nonev) (INR (b + 1))) by (apply add_count; auto using one_real; ex).
      assert (Az : is_real (nadd z nonev) (INR (c + 1))) by (apply add_count; auto using one_real; ex).
      destruct Wo as [->| ->], Wt as [->| ->]; rewrite ?(eqb_rf eqb Heq), ?Hoz, ?Hzo; cbn [andb];
      match goal with H1 : is_real ?x0 (INR ?a0), H2 : is_real ?y0 (INR ?b0), H3 : is_real ?z0 (INR ?c0) |- context [f1_loop eqb zero one (combine os ts) ?x0 ?y0 ?z0] =>
        destruct (IH ts ltac:(lia) V1 V2 a0 b0 c0 x0 y0 z0 H1 H2 H3 ltac:(ex) ltac:(ex) ltac:(ex)) as (x' & y' & z' & L & L1 & L2 & L3) end;
      exists x', y', z'; (split; [exact L|]); (split; [fit|split; fit]).
  Qed.

  Lemma ratio_b64 x y a b : is_real x (INR a) -> is_real y (INR b) -> (a <= b)%nat -> exact_count b -> rounded_ratio (ndiv x y) a b.
  Proof.
    intros Hx Hy H Hb. split; intros Z.
    - subst. assert (a = 0)%nat by lia. subst. now apply div_zero.
    - destruct (div_count _ _ _ _ Hx Hy H Z) as [[D1 D2] D3]. rewrite nearest_rnd, D2. split; [split; auto|]. split; auto. split; [now apply frac_one|now apply frac_zero].
  Qed.
  Lemma two_class_b64 (os ts : list T) : length os = length ts -> two_class zero one os -> two_class zero one ts -> exact_count (2 * length os) ->
    exists p r f, precision (F := B64) eqb zero one os ts = Ok p /\ recall (F := B64) eqb zero one os ts = Ok r /\ f1 (F := B64) eqb zero one os ts = Ok f /\
      rounded_ratio p (TP' os ts) (TP' os ts + FP' os ts) /\ rounded_ratio r (TP' os ts) (TP' os ts + FN' os ts) /\
      rounded_ratio f (2 * TP' os ts) (2 * TP' os ts + FP' os ts + FN' os ts).
  Proof.
    intros H W1 W2 Hx. pose proof (count_sum os ts) as S. unfold precision, recall, f1. rewrite H, Nat.eqb_refl. cbn [rassert].
    assert (Ex : exact_count (0 + length os)) by (apply exact_le with (2 := Hx); lia).
    destruct (precision_loop_b64 os ts H W1 W2 0 0 nzero nzero) as (p1 & p2 & P & P1 & P2); auto using zero_real.
    destruct (recall_loop_b64 os ts H W1 W2 0 0 nzero nzero) as (r1 & r2 & R & R1 & R2); auto using zero_real.
    destruct (f1_loop_b64 os ts H W1 W2 0 0 0 nzero nzero nzero) as (f1 & f2 & f3 & Q & Q1 & Q2 & Q3); auto using zero_real.
    rewrite P, R, Q. cbn [rbind]. do 3 eexists. split; [reflexivity|]. split; [reflexivity|]. split; [reflexivity|].
    assert (E2 : is_real (nadd nonev nonev) (INR 2)) by (apply (add_count _ _ 1 1); auto using one_real; unfold exact_count; lia).
    split; [|split]; apply ratio_b64; auto; try lia; try (apply exact_le with (2 := Hx); lia).
    - apply mul_count; auto. apply exact_le with (2 := Hx). cbn [Nat.add] in *. lia.
    - apply add_count; auto; [|apply exact_le with (2 := Hx); cbn [Nat.add] in *; lia]. apply add_count; auto; [|apply exact_le with (2 := Hx); cbn [Nat.add] in *; lia].
      apply mul_count; auto. apply exact_le with (2 := Hx). cbn [Nat.add] in *. lia.
  Qed.
End Acc.
