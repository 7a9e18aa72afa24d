From Coq Require Import List Arith Bool Reals ZArith Lia Lra.
From Flocq Require Import Core BinarySingleNaN.
From Verif Require Import Base Num NumF NumFn B64Lemmas Linalg Model_Optim Model_Kernel Spec_Kernel Spec_B64 Proof_ScoreB64 Proof_DBSCANEx.
Import ListNotations.
Local Open Scope R_scope.

(** ** Symmetry *)
Lemma mul_comm_b64 (x y : B64) : nmul x y = nmul y x.
Proof.
  destruct x as [s|s| |s m e b], y as [s'|s'| |s' m' e' b']; try (destruct s, s'; reflexivity); try (destruct s; reflexivity); try (destruct s'; reflexivity); try reflexivity.
  apply B2SF_inj. unfold nmul, NumB64, Bmult. rewrite !B2SF_SF2B. now rewrite xorb_comm, Pos.mul_comm, Z.add_comm.
Qed.
Lemma dot_comm_b64 (x y : list B64) : dot x y = dot y x.
Proof. unfold dot, vsum. f_equal. revert y. induction x as [|a x IH]; intros [|b y]; cbn [map2]; auto. f_equal; [apply mul_comm_b64|apply IH]. Qed.
Lemma vsub_sq_b64 (x y : list B64) : dot (vsub x y) (vsub x y) = dot (vsub y x) (vsub y x).
Proof.
  unfold dot, vsum. f_equal. revert y. induction x as [|a x IH]; intros [|b y]; auto. unfold vsub in *. cbn [map2]. f_equal; [apply sq_sub_sym|apply IH].
Qed.
Section Sym.
  Context {NF : NumFn B64}.
  Lemma kernels_sym_b64 (a c d l : B64) :
    symmetric (k_linear c) /\ symmetric (k_polynomial a c d) /\ symmetric (k_squared_exp l a) /\ symmetric (k_exponential l a) /\
    symmetric (k_hyper_tan a c) /\ symmetric (k_multiquadric c) /\ symmetric (k_rational_quadratic a l).
  Proof.
    repeat split; intros x y; unfold k_linear, k_polynomial, k_hyper_tan, k_squared_exp, k_exponential, k_multiquadric, k_rational_quadratic, rvsub, norm2, rassert;
      try (now rewrite (dot_comm_b64 x y)); rewrite (Nat.eqb_sym (length y)); destruct (_ =? _)%nat; cbn [rbind]; auto; now rewrite (vsub_sq_b64 x y).
  Qed.
  Lemma combine_sym_b64 (k1 k2 : Kernel B64) : symmetric k1 -> symmetric k2 -> symmetric (kernel_sum k1 k2) /\ symmetric (kernel_prod k1 k2).
  Proof. intros S1 S2. split; intros x y; unfold kernel_sum, kernel_prod; now rewrite (S1 x y), (S2 x y). Qed.
End Sym.

(** ** Range of the squared exponential kernel *)
(** Sums of squares of differences of finite numbers: never NaN, never negative (infinity on overflow). *)
Definition nneg (x : B64) : Prop := is_nan x = false /\ 0 <= phi x.
Lemma nneg_add x y : nneg x -> nneg y -> nneg (nadd x y).
Proof. intros [A B] [C D]. destruct (add_pos_rounds x y A C B D) as [E G]. split; auto. rewrite G. apply fr_nonneg. lra. Qed.
Lemma nneg_sq x : is_nan x = false -> nneg (nmul x x).
Proof. intros A. destruct (sq_rounds x A) as [E G]. split; [exact E|]. eapply Rle_trans; [|right; symmetry; exact G]. apply fr_nonneg. nra. Qed.
Lemma nneg_zero : nneg nzero. Proof. split; [reflexivity|cbn; lra]. Qed.
Lemma nneg_fold l : Forall nneg l -> forall a, nneg a -> nneg (fold_left nadd l a).
Proof. induction 1 as [|x l H _ IH]; intros a Ha; cbn; auto. apply IH. now apply nneg_add. Qed.
Lemma nneg_sqdist (x y : list B64) : finite_vec x -> finite_vec y -> nneg (dot (vsub x y) (vsub x y)).
Proof.
  intros Hx Hy. apply nneg_fold; [|apply nneg_zero]. revert y Hy. induction Hx as [|a x A _ IH]; intros [|b y] Hy; cbn [vsub map2]; auto.
  inversion Hy; subst. constructor; [|now apply IH]. apply nneg_sq. apply (sub_rounds a b); auto.
Qed.
(** Quotient by a positive finite number. *)
Lemma nonpos_div (d q : B64) : nneg d -> is_finite q = true -> 0 < B2R q -> Bleb (ndiv (nopp d) q) (B754_zero false) = true.
Proof.
  intros [D1 D2] Fq Pq. destruct (is_finite d) eqn:Fd.
  - assert (Fo : is_finite (Bopp d) = true) by (now rewrite is_finite_Bopp). rewrite phi_finite in D2 by auto.
    pose proof (Bdiv_correct 53 1024 prec64 emax64 mode_NE (Bopp d) q ltac:(lra)) as Q. fold top64 in Q.
    change (round radix2 (SpecFloat.fexp 53 1024) (round_mode mode_NE)) with rnd64 in Q. rewrite B2R_Bopp in Q.
    destruct (Rlt_bool _ _) eqn:C.
    + destruct Q as (Q1 & Q2 & _). change (ndiv (nopp d) q) with (Bdiv mode_NE (Bopp d) q). rewrite Bleb_correct; [|now rewrite Q2|reflexivity].
      apply Rle_bool_true. rewrite Q1. cbn [B2R]. rewrite <- rnd64_0. apply rnd64_le. unfold Rdiv.
      assert (0 < / B2R q) by (now apply Rinv_0_lt_compat). nra.
    + change (ndiv (nopp d) q) with (Bdiv mode_NE (Bopp d) q). destruct (Bdiv mode_NE (Bopp d) q) as [s|s| |s m e b] eqn:E; cbn in Q; try discriminate Q; try (injection Q as ->).
      rewrite Bsign_Bopp by (now apply finite_nan).
      assert (Sq : Bsign q = false). { destruct (Bsign q) eqn:K; auto. apply Bsign_neg in K; auto. lra. } rewrite Sq.
      assert (Sd : Bsign d = false \/ B2R d = 0). { destruct (Bsign d) eqn:K; auto. apply Bsign_neg in K; auto. right. lra. }
      destruct Sd as [->|Z]; [reflexivity|]. exfalso. rewrite Z in C. rewrite Ropp_0 in C. unfold Rdiv in C. rewrite Rmult_0_l, rnd64_0, Rabs_R0 in C.
      rewrite Rlt_bool_true in C; [discriminate|apply top64_pos].
  - destruct d as [s|s| |s m e b]; try discriminate. cbn [phi] in D2. destruct s; [generalize top64_pos; lra|].
    destruct q as [s|s| |s m e b]; try discriminate; [cbn in Pq; lra|]. destruct s; [|reflexivity]. exfalso. revert Pq. apply Rle_not_lt. apply Rlt_le, F2R_lt_0. cbn. lia.
Qed.
Lemma mul_unit (a e : B64) : is_finite a = true -> 0 <= B2R a -> is_finite e = true -> 0 <= B2R e <= 1 ->
  is_finite (nmul a e) = true /\ 0 <= B2R (nmul a e) <= B2R a.
Proof.
  intros Fa Pa Fe Pe. assert (B : 0 <= rnd64 (B2R a * B2R e) <= B2R a).
  { split; [rewrite <- rnd64_0; apply rnd64_le; nra|]. rewrite <- (rnd64_B2R a) at 2. apply rnd64_le. nra. }
  destruct (op_finite _ _ (mul_rounds a e Fa Fe)) as [G1 G2].
  - rewrite Rabs_right by lra. apply Rle_lt_trans with (B2R a); [lra|]. pose proof (abs_B2R_lt_emax 53 1024 a) as Q. fold top64 in Q. apply Rabs_def2 in Q. lra.
  - now rewrite G2.
Qed.
Lemma mul_one_b64 (a : B64) : is_finite a = true -> nmul a (b64_of_Z 1) = a.
Proof.
  intros Fa. assert (F1 : is_finite (b64_of_Z 1) = true) by exact (proj1 one_real). assert (V1 : B2R (b64_of_Z 1) = 1) by exact (proj2 one_real).
  pose proof (Bmult_correct 53 1024 prec64 emax64 mode_NE a (b64_of_Z 1)) as Q. fold top64 in Q.
  change (round radix2 (SpecFloat.fexp 53 1024) (round_mode mode_NE)) with rnd64 in Q. rewrite V1, Rmult_1_r, rnd64_B2R in Q.
  rewrite Rlt_bool_true in Q by (apply abs_B2R_lt_emax). destruct Q as (Q1 & Q2 & Q3). rewrite Fa, F1 in Q2.
  apply B2R_Bsign_inj; auto. change (@nmul B64 NumB64) with (@Bmult 53 1024 prec64 emax64 mode_NE). rewrite Q3 by (now apply finite_nan).
  change (Bsign (b64_of_Z 1)) with false. now destruct (Bsign a).
Qed.
Lemma sub_self (x : B64) : is_finite x = true -> nsub x x = nzero.
Proof.
  intros Fx. pose proof (Bminus_correct 53 1024 prec64 emax64 mode_NE x x Fx Fx) as Q. fold top64 in Q.
  change (round radix2 (SpecFloat.fexp 53 1024) (round_mode mode_NE)) with rnd64 in Q.
  replace (B2R x - B2R x) with 0 in Q by ring. rewrite rnd64_0, Rabs_R0, Rlt_bool_true in Q by (apply top64_pos). destruct Q as (Q1 & Q2 & Q3).
  apply B2R_Bsign_inj; auto. change (@nsub B64 NumB64) with (@Bminus 53 1024 prec64 emax64 mode_NE). rewrite Q3. rewrite Rcompare_Eq by reflexivity. now destruct (Bsign x).
Qed.
Lemma sqdist_self (x : list B64) : finite_vec x -> dot (vsub x x) (vsub x x) = nzero.
Proof.
  intros H. unfold dot, vsum. induction H as [|a x A _ IH]; [reflexivity|]. cbn [vsub map2 fold_left]. rewrite (sub_self a A).
  exact IH.
Qed.
Section Range.
  Context {NF : NumFn B64}.
  Hypothesis G : good_exp nexp.
  Lemma squared_exp_b64 (l a : B64) (x y : list B64) : is_finite a = true -> 0 <= B2R a ->
    is_finite (nmul (nmul two l) l) = true -> 0 < B2R (nmul (nmul two l) l) ->
    finite_vec x -> finite_vec y -> length x = length y ->
    exists v, k_squared_exp l a x y = Ok v /\ is_finite v = true /\ 0 <= B2R v <= B2R a /\ k_squared_exp l a x x = Ok a.
  Proof.
    intros Fa Pa Fl Pl Hx Hy L. unfold k_squared_exp, rvsub, rassert. rewrite L, !Nat.eqb_refl. cbn [rbind].
    eexists. split; [reflexivity|]. destruct (proj1 G _ (nonpos_div _ _ (nneg_sqdist x y Hx Hy) Fl Pl)) as [E1 E2].
    destruct (mul_unit a _ Fa Pa E1 E2) as [M1 M2]. split; auto. split; auto.
    rewrite sqdist_self by auto. do 2 f_equal. rewrite (proj2 G); [now apply mul_one_b64|].
    change (@nopp B64 NumB64 nzero) with (B754_zero true : B64). unfold ndiv, NumB64.
    destruct (nmul (nmul two l) l) as [s|s| |s m e b]; try discriminate; [cbn in Pl; lra|]. destruct s; split; reflexivity.
  Qed.
  Lemma exponential_b64 (l a : B64) (x y : list B64) : is_finite a = true -> 0 <= B2R a ->
    is_finite (nmul (nmul two l) l) = true -> 0 < B2R (nmul (nmul two l) l) ->
    finite_vec x -> finite_vec y -> length x = length y ->
    exists v, k_exponential l a x y = Ok v /\ is_finite v = true /\ 0 <= B2R v <= B2R a /\ k_exponential l a x x = Ok a.
  Proof.
    intros Fa Pa Fl Pl Hx Hy L. unfold k_exponential, rvsub, rassert. rewrite L, !Nat.eqb_refl. cbn [rbind].
    eexists. split; [reflexivity|]. assert (N : nneg (norm2 (vsub x y))).
    { destruct (nneg_sqdist x y Hx Hy) as [N1 N2]. now apply sqrt_pos. }
    destruct (proj1 G _ (nonpos_div _ _ N Fl Pl)) as [E1 E2].
    destruct (mul_unit a _ Fa Pa E1 E2) as [M1 M2]. split; auto. split; auto.
    unfold norm2. rewrite sqdist_self by auto. do 2 f_equal. rewrite (proj2 G); [now apply mul_one_b64|].
    change (@nopp B64 NumB64 (nsqrt nzero)) with (B754_zero true : B64). unfold ndiv, NumB64.
    destruct (nmul (nmul two l) l) as [s|s| |s m e b]; try discriminate; [cbn in Pl; lra|]. destruct s; split; reflexivity.
  Qed.
End Range.
