(** * The Gaussian cdf of the crate is within 0.0035 of the true one everywhere

    Both functions increase, so it is enough to compare neighbouring points of a grid of width 1/2048, up to 2.75. The exponentials are computed in
    fixed point ([Z], 44 binary digits) by recurrences, rounded to the safe side; the integral by sums of rectangles. *)
From Coq Require Import Reals Lra Lia ZArith Bool.
From Coquelicot Require Import Coquelicot.
From Verif Require Import Base BaseLemmas Num NumX NumFn NumSign RealBounds Model_Dist Spec_Dist Proof_Dist Proof_DistEx.
Local Open Scope R_scope.

Definition Sc : Z := Eval compute in (2 ^ 44)%Z.
Definition mdn (a b : Z) : Z := Z.shiftr (a * b) 44.
Definition mup (a b : Z) : Z := Z.shiftr (a * b + (Sc - 1)) 44.

Lemma Sc_pos : (0 < Sc)%Z. Proof. reflexivity. Qed.
Lemma ScR_pos : 0 < IZR Sc. Proof. apply IZR_lt. reflexivity. Qed.
Definition fx (a : Z) : R := IZR a / IZR Sc.
Lemma fx_nonneg a : (0 <= a)%Z -> 0 <= fx a.
Proof. intros H. unfold fx. apply Rmult_le_pos; [now apply IZR_le|]. left. apply Rinv_0_lt_compat, ScR_pos. Qed.
Lemma shr a : Z.shiftr a 44 = (a / Sc)%Z.
Proof. rewrite Z.shiftr_div_pow2 by lia. reflexivity. Qed.
Lemma mdn_le a b : fx (mdn a b) <= fx a * fx b.
Proof.
  unfold fx, mdn. rewrite shr. pose proof ScR_pos. apply (Rmult_le_reg_r (IZR Sc)); auto. apply (Rmult_le_reg_r (IZR Sc)); auto.
  replace (IZR (a * b / Sc) / IZR Sc * IZR Sc * IZR Sc) with (IZR (a * b / Sc) * IZR Sc) by (field; lra).
  replace (IZR a / IZR Sc * (IZR b / IZR Sc) * IZR Sc * IZR Sc) with (IZR a * IZR b) by (field; lra).
  rewrite <- !mult_IZR. apply IZR_le. rewrite Z.mul_comm. apply Z.mul_div_le. reflexivity.
Qed.
Lemma mdn_nonneg a b : (0 <= a)%Z -> (0 <= b)%Z -> (0 <= mdn a b)%Z.
Proof. intros. unfold mdn. rewrite shr. apply Z.div_pos; [nia|reflexivity]. Qed.
Lemma mup_ge a b : fx a * fx b <= fx (mup a b).
Proof.
  unfold fx, mup. rewrite shr. pose proof ScR_pos. apply (Rmult_le_reg_r (IZR Sc)); auto. apply (Rmult_le_reg_r (IZR Sc)); auto.
  set (q := ((a * b + (Sc - 1)) / Sc)%Z). replace (IZR q / IZR Sc * IZR Sc * IZR Sc) with (IZR q * IZR Sc) by (field; lra).
  replace (IZR a / IZR Sc * (IZR b / IZR Sc) * IZR Sc * IZR Sc) with (IZR a * IZR b) by (field; lra).
  rewrite <- !mult_IZR. apply IZR_le. unfold q. pose proof (Z.div_mod (a * b + (Sc - 1)) Sc ltac:(discriminate)). pose proof (Z.mod_pos_bound (a * b + (Sc - 1)) Sc Sc_pos). lia.
Qed.

(** The state at grid point [i]: bounds of exp(-x^2/2), of the factor to the next point, of exp(-2x^2/pi) and its factor, and the two sums of rectangles. *)
Record st := { el : Z; rl : Z; eu : Z; ru : Z; cl : Z; sl : Z; cu : Z; su : Z; J : Z; U : Z }.
Definition st0 : st := {| el := Sc; rl := 17592183947264; eu := Sc; ru := 17592183947265; cl := Sc; sl := 17592183374154; cu := Sc; su := 17592183374281; J := 0; U := 0 |}%Z.
Definition ql := 17592181850112%Z.
Definition qu := 17592181850113%Z.
Definition pl := 17592180703893%Z.
Definition pu := 17592180704146%Z.
Definition Kl := 6536%Z.
Definition Ku := 6537%Z.
Definition next (s : st) : st :=
  let e := mdn (el s) (rl s) in
  {| el := e; rl := mdn (rl s) ql; eu := mup (eu s) (ru s); ru := mup (ru s) qu; cl := mdn (cl s) (sl s); sl := mdn (sl s) pl; cu := mup (cu s) (su s); su := mup (su s) pu;
     J := J s + e; U := U s + eu s |}%Z.
Definition Den : Z := Eval compute in (1000 * Sc * 2 ^ 25)%Z.
Definition Tol : Z := Eval compute in (7 * Sc * 2 ^ 25)%Z.
Definition Wn (s : st) : Z := (Tol + 2000 * J s * Kl)%Z.
Definition Vn (s : st) : Z := (2000 * U s * Ku - Tol)%Z.
Definition check (s s' : st) : bool :=
  ((Sc - cl s') * (Den * Den) <=? Sc * (Wn s * Wn s))%Z && ((Vn s' <=? 0)%Z || (Sc * (Vn s' * Vn s') <=? (Sc - cu s) * (Den * Den))%Z).
Fixpoint run (n : nat) (s : st) : bool * st :=
  match n with
  | O => (true, s)
  | S n' => let s' := next s in if check s s' then run n' s' else (false, s')
  end.
Definition last_check (s : st) : bool :=
  (Den <=? Wn s)%Z && (let v := (11 * Vn s + 2000 * 4 * 2048 * eu s * Ku)%Z in (Sc * (v * v) <=? (Sc - cu s) * (121 * (Den * Den)))%Z).
Definition steps : nat := 44 * 128.
Lemma run_ok : (let r := run steps st0 in fst r && last_check (snd r)) = true.
Proof. vm_compute. reflexivity. Qed.

(** ** The functions on the grid *)
Definition E (x : R) : R := exp (- (x ^ 2 / 2)).
Definition C (x : R) : R := exp (- (2 / PI * x ^ 2)).
Definition G (x : R) : R := RInt E 0 x.
Definition xi (i : nat) : R := INR i / 2048.
Lemma xi_S i : xi (S i) = xi i + / 2048.
Proof. unfold xi. rewrite S_INR. field. Qed.
Lemma xi_0 : xi 0 = 0.
Proof. unfold xi. cbn. field. Qed.
Lemma xi_nonneg i : 0 <= xi i.
Proof. unfold xi. apply Rmult_le_pos; [apply pos_INR|lra]. Qed.
Definition al : R := / (2 * 2048 ^ 2).
Definition be : R := 2 / PI / 2048 ^ 2.
Definition rE (i : nat) : R := exp (- ((2 * INR i + 1) * al)).
Definition rC (i : nat) : R := exp (- ((2 * INR i + 1) * be)).
Lemma E_next i : E (xi (S i)) = E (xi i) * rE i.
Proof. unfold E, rE. rewrite <- exp_plus. f_equal. rewrite xi_S. unfold xi, al. field. Qed.
Lemma C_next i : C (xi (S i)) = C (xi i) * rC i.
Proof. unfold C, rC. rewrite <- exp_plus. f_equal. rewrite xi_S. unfold xi, be. field. apply PI_neq0. Qed.
Lemma rE_next i : rE (S i) = rE i * exp (- (2 * al)).
Proof. unfold rE. rewrite <- exp_plus. f_equal. rewrite S_INR. ring. Qed.
Lemma rC_next i : rC (S i) = rC i * exp (- (2 * be)).
Proof. unfold rC. rewrite <- exp_plus. f_equal. rewrite S_INR. ring. Qed.
Lemma E_decr x y : 0 <= x -> x <= y -> E y <= E x.
Proof. intros Hx H. unfold E. assert (x ^ 2 <= y ^ 2) by nra. destruct (Rle_lt_or_eq_dec (x ^ 2) (y ^ 2)) as [L|L]; auto; [left; apply exp_increasing; lra|rewrite L; lra]. Qed.
Lemma C_decr x y : 0 <= x -> x <= y -> C y <= C x.
Proof.
  intros Hx H. unfold C. assert (x ^ 2 <= y ^ 2) by nra. pose proof PI_RGT_0. assert (0 < 2 / PI) by (apply Rdiv_lt_0_compat; lra).
  destruct (Rle_lt_or_eq_dec (x ^ 2) (y ^ 2)) as [L|L]; auto; [left; apply exp_increasing; nra|rewrite L; lra].
Qed.
Lemma E_int a b : ex_RInt E a b.
Proof. apply (ex_RInt_continuous (V := R_CompleteNormedModule)). intros t _. apply (ex_derive_continuous (K := R_AbsRing) (V := R_NormedModule)). unfold E. auto_derive. auto. Qed.
Lemma G_split x y : G y = G x + RInt E x y.
Proof. unfold G. rewrite <- (RInt_Chasles E 0 x y); auto using E_int. Qed.
Lemma int_ge x y : 0 <= x -> x <= y -> (y - x) * E y <= RInt E x y.
Proof.
  intros Hx H. replace ((y - x) * E y) with (RInt (fun _ => E y) x y) by (rewrite RInt_const; reflexivity).
  apply RInt_le; auto; [apply ex_RInt_const|apply E_int|]. intros t Ht. apply E_decr; lra.
Qed.
Lemma int_le x y : 0 <= x -> x <= y -> RInt E x y <= (y - x) * E x.
Proof.
  intros Hx H. replace ((y - x) * E x) with (RInt (fun _ => E x) x y) by (rewrite RInt_const; reflexivity).
  apply RInt_le; auto; [apply E_int|apply ex_RInt_const|]. intros t Ht. apply E_decr; lra.
Qed.
Lemma G_incr x y : 0 <= x -> x <= y -> G x <= G y.
Proof. intros Hx H. rewrite (G_split x y). pose proof (int_ge x y Hx H). assert (0 < E y) by apply exp_pos. nra. Qed.
Lemma G_0 : G 0 = 0.
Proof. unfold G. apply (RInt_point (V := R_CompleteNormedModule) 0 E). Qed.
Lemma tail_le X z : 0 < X -> X <= z -> RInt E X z <= E X / X.
Proof.
  intros HX H. assert (I : is_RInt (fun t => t / X * E t) X z (- E z / X - - E X / X)).
  { apply (is_RInt_derive (fun t => - E t / X) (fun t => t / X * E t)).
    - intros t _. unfold E. auto_derive; [auto|]. replace (exp (- (t * (t * 1) * / 2))) with (exp (- (t ^ 2 / 2))) by (f_equal; field). field. lra.
    - intros t _. apply (ex_derive_continuous (K := R_AbsRing) (V := R_NormedModule)). unfold E. auto_derive. auto. }
  apply Rle_trans with (RInt (fun t => t / X * E t) X z).
  - apply RInt_le; auto; [apply E_int|eexists; exact I|]. intros t Ht. assert (0 < E t) by apply exp_pos.
    assert (1 <= t / X). { apply (Rmult_le_reg_r X); auto. unfold Rdiv. rewrite Rmult_assoc, Rinv_l by lra. lra. } nra.
  - rewrite (is_RInt_unique _ _ _ _ I). assert (0 < E z) by apply exp_pos. assert (0 < E z / X) by (now apply Rdiv_lt_0_compat). unfold Rdiv in *. lra.
Qed.

(** ** The invariant *)
Record Inv (i : nat) (s : st) : Prop := {
  i_el : (0 <= el s)%Z /\ fx (el s) <= E (xi i); i_rl : (0 <= rl s)%Z /\ fx (rl s) <= rE i;
  i_eu : E (xi i) <= fx (eu s); i_ru : rE i <= fx (ru s);
  i_cl : (0 <= cl s)%Z /\ fx (cl s) <= C (xi i); i_sl : (0 <= sl s)%Z /\ fx (sl s) <= rC i;
  i_cu : C (xi i) <= fx (cu s); i_su : rC i <= fx (su s);
  i_J : (0 <= J s)%Z /\ fx (J s) / 2048 <= G (xi i); i_U : G (xi i) <= fx (U s) / 2048 }.
Lemma dn a b x y : (0 <= a)%Z /\ fx a <= x -> (0 <= b)%Z /\ fx b <= y -> (0 <= mdn a b)%Z /\ fx (mdn a b) <= x * y.
Proof.
  intros [Ha A] [Hb B]. split; [now apply mdn_nonneg|]. eapply Rle_trans; [apply mdn_le|]. apply fx_nonneg in Ha, Hb. apply Rmult_le_compat; auto.
Qed.
Lemma up a b x y : 0 < x -> 0 < y -> x <= fx a -> y <= fx b -> x * y <= fx (mup a b).
Proof. intros Hx Hy A B. eapply Rle_trans; [|apply mup_ge]. apply Rmult_le_compat; lra. Qed.
Lemma exp_dn u a : 0 <= u -> (0 <= a)%Z -> fx a <= 1 - u + u ^ 2 / 2 - u ^ 3 / 6 -> (0 <= a)%Z /\ fx a <= exp (- u).
Proof.
  intros Hu Ha H. split; auto. eapply Rle_trans; [exact H|]. eapply Rle_trans; [|apply (texp_neg_lower 1); auto]. unfold texp. cbn -[INR]. right. cbn. field.
Qed.
Lemma exp_up u a : 0 <= u -> 1 - u + u ^ 2 / 2 <= fx a -> exp (- u) <= fx a.
Proof. intros Hu H. eapply Rle_trans; [apply (texp_neg_upper 1); auto|]. eapply Rle_trans; [|exact H]. unfold texp. cbn -[INR]. right. cbn. field. Qed.
Lemma inv_pi : 63661 / 100000 <= 2 / PI <= 63664 / 100000.
Proof.
  pose proof PI_lower. pose proof PI_upper. split.
  - apply (Rmult_le_reg_r PI); [lra|]. unfold Rdiv at 2. rewrite Rmult_assoc, Rinv_l by lra. lra.
  - apply (Rmult_le_reg_r PI); [lra|]. unfold Rdiv at 1. rewrite Rmult_assoc, Rinv_l by lra. lra.
Qed.
Lemma fac_E : ((0 <= rl st0)%Z /\ fx (rl st0) <= rE 0) /\ rE 0 <= fx (ru st0) /\ ((0 <= ql)%Z /\ fx ql <= exp (- (2 * al))) /\ exp (- (2 * al)) <= fx qu.
Proof.
  unfold rE. replace ((2 * INR 0 + 1) * al) with al by (cbn; ring). split; [|split; [|split]].
  - apply exp_dn; unfold al, fx, Sc, st0; cbn [rl]; [lra|lia|lra].
  - apply exp_up; unfold al, fx, Sc, st0; cbn [ru]; lra.
  - apply exp_dn; unfold al, fx, Sc, ql; [lra|lia|lra].
  - apply exp_up; unfold al, fx, Sc, qu; lra.
Qed.
Lemma fac_C : ((0 <= sl st0)%Z /\ fx (sl st0) <= rC 0) /\ rC 0 <= fx (su st0) /\ ((0 <= pl)%Z /\ fx pl <= exp (- (2 * be))) /\ exp (- (2 * be)) <= fx pu.
Proof.
  unfold rC. replace ((2 * INR 0 + 1) * be) with be by (cbn; ring).
  assert (M : forall u v, u <= v -> exp (- v) <= exp (- u)). { intros u v [L| ->]; [left; apply exp_increasing; lra|lra]. }
  pose proof inv_pi as [Il Iu].
  assert (L1 : be <= 63664 / 100000 / 2048 ^ 2) by (unfold be; lra). assert (L2 : 63661 / 100000 / 2048 ^ 2 <= be) by (unfold be; lra).
  split; [|split; [|split]].
  - split; [unfold st0; cbn [sl]; lia|]. eapply Rle_trans; [|apply M, L1]. apply exp_dn; unfold fx, Sc, st0; cbn [sl]; [lra|lia|lra].
  - eapply Rle_trans; [apply M, L2|]. apply exp_up; unfold fx, Sc, st0; cbn [su]; lra.
  - split; [unfold pl; lia|]. eapply Rle_trans; [|apply (M (2 * be) (2 * (63664 / 100000 / 2048 ^ 2))); lra]. apply exp_dn; unfold fx, Sc, pl; [lra|lia|lra].
  - eapply Rle_trans; [apply (M (2 * (63661 / 100000 / 2048 ^ 2))); lra|]. apply exp_up; unfold fx, Sc, pu; lra.
Qed.
Lemma inv_0 : Inv 0 st0.
Proof.
  assert (S1 : fx Sc = 1) by (unfold fx, Sc; field). assert (E0 : E (xi 0) = 1) by (rewrite xi_0; unfold E; rewrite <- exp_0; f_equal; field).
  assert (C0 : C (xi 0) = 1) by (rewrite xi_0; unfold C; rewrite <- exp_0; f_equal; field; apply PI_neq0).
  destruct fac_E as (A1 & A2 & _). destruct fac_C as (B1 & B2 & _).
  constructor; auto; cbn [el eu cl cu J U st0]; rewrite ?S1, ?E0, ?C0, ?xi_0, ?G_0; try (split; [unfold Sc; lia|]); unfold fx; lra.
Qed.
Lemma fx_add a b : fx (a + b) = fx a + fx b.
Proof. unfold fx. rewrite plus_IZR. unfold Rdiv. ring. Qed.
Lemma inv_next i s : Inv i s -> Inv (S i) (next s).
Proof.
  intros [A1 A2 A3 A4 B1 B2 B3 B4 HJ HU]. destruct fac_E as (_ & _ & Q1 & Q2). destruct fac_C as (_ & _ & P1 & P2).
  assert (D1 := dn _ _ _ _ A1 A2). rewrite <- E_next in D1.
  constructor; cbn [next el rl eu ru cl sl cu su J U]; rewrite ?E_next, ?C_next, ?rE_next, ?rC_next.
  - now apply dn.
  - now apply dn.
  - apply up; auto; apply exp_pos.
  - apply up; auto; apply exp_pos.
  - now apply dn.
  - now apply dn.
  - apply up; auto; apply exp_pos.
  - apply up; auto; apply exp_pos.
  - destruct D1 as [D0 D1]. destruct HJ as [J0 HJ]. split; [lia|]. rewrite fx_add, (G_split (xi i)).
    assert (L : xi i <= xi (S i)) by (rewrite xi_S; lra). pose proof (int_ge (xi i) (xi (S i)) (xi_nonneg i) L) as I.
    replace (xi (S i) - xi i) with (/ 2048) in I by (rewrite xi_S; ring). lra.
  - rewrite fx_add, (G_split (xi i)).
    assert (L : xi i <= xi (S i)) by (rewrite xi_S; lra). pose proof (int_le (xi i) (xi (S i)) (xi_nonneg i) L) as I.
    replace (xi (S i) - xi i) with (/ 2048) in I by (rewrite xi_S; ring). lra.
Qed.

(** ** From the checks to the bound *)
Definition kk : R := / sqrt (2 * PI).
Lemma kk_bounds : IZR Kl / 2 ^ 14 <= kk <= IZR Ku / 2 ^ 14.
Proof.
  pose proof PI_lower. pose proof PI_upper. unfold kk, Kl, Ku.
  assert (S2 : 25065 / 10000 <= sqrt (2 * PI) <= 25067 / 10000).
  { split; [rewrite <- (sqrt_pow2 (25065 / 10000)) by lra|rewrite <- (sqrt_pow2 (25067 / 10000)) by lra]; apply sqrt_le_1_alt; lra. }
  split.
  - apply Rle_trans with (/ (25067 / 10000)); [lra|]. apply Rinv_le_contravar; lra.
  - apply Rle_trans with (/ (25065 / 10000)); [apply Rinv_le_contravar; lra|lra].
Qed.
Lemma kk_pos : 0 < kk.
Proof. apply Rinv_0_lt_compat, sqrt_lt_R0. pose proof PI_RGT_0. lra. Qed.
Definition pol (z : R) : R := sqrt (1 - C z).
Lemma Den_pos : 0 < IZR Den. Proof. apply IZR_lt. reflexivity. Qed.
Lemma C_le1 z : C z <= 1.
Proof.
  unfold C. rewrite <- exp_0. pose proof PI_RGT_0. assert (0 <= 2 / PI * z ^ 2). { apply Rmult_le_pos; [left; apply Rdiv_lt_0_compat; lra|apply pow2_ge_0]. }
  destruct H0 as [L|L]; [left; apply exp_increasing; lra|rewrite <- L, Ropp_0; lra].
Qed.
Lemma pol_incr x y : 0 <= x -> x <= y -> pol x <= pol y.
Proof. intros Hx L. apply sqrt_le_1_alt. pose proof (C_decr x y Hx L). lra. Qed.
Lemma sq_upper c w : 0 <= w -> fx c <= 1 -> 0 <= w -> (1 - fx c) <= w ^ 2 -> sqrt (1 - fx c) <= w.
Proof. intros Hw _ _ L. rewrite <- (sqrt_pow2 w) by auto. now apply sqrt_le_1_alt. Qed.
Lemma W_real s : IZR (Wn s) / IZR Den = 7 / 1000 + 2 * (fx (J s) / 2048 * (IZR Kl / 2 ^ 14)).
Proof. unfold Wn, fx. rewrite plus_IZR, !mult_IZR. unfold Tol, Den, Sc. field. Qed.
Lemma V_real s : IZR (Vn s) / IZR Den = 2 * (fx (U s) / 2048 * (IZR Ku / 2 ^ 14)) - 7 / 1000.
Proof. unfold Vn, fx. rewrite minus_IZR, !mult_IZR. unfold Tol, Den, Sc. field. Qed.
Lemma W_G i s : Inv i s -> IZR (Wn s) / IZR Den <= 7 / 1000 + 2 * (G (xi i) * kk) /\ 0 <= IZR (Wn s) / IZR Den.
Proof.
  intros I. rewrite W_real. destruct (i_J _ _ I) as [J0 HJ]. apply fx_nonneg in J0. pose proof kk_bounds as [K1 _]. assert (0 <= IZR Kl / 2 ^ 14) by (unfold Kl; lra).
  assert (fx (J s) / 2048 * (IZR Kl / 2 ^ 14) <= G (xi i) * kk) by (apply Rmult_le_compat; lra).
  assert (0 <= fx (J s) / 2048 * (IZR Kl / 2 ^ 14)) by (apply Rmult_le_pos; lra). lra.
Qed.
Lemma V_G i s : Inv i s -> 2 * (G (xi i) * kk) - 7 / 1000 <= IZR (Vn s) / IZR Den.
Proof.
  intros I. rewrite V_real. pose proof (i_U _ _ I) as HU. pose proof kk_bounds as [_ K2]. pose proof kk_pos.
  assert (0 <= G (xi i)) by (rewrite <- G_0; apply G_incr; [lra|apply xi_nonneg]).
  assert (G (xi i) * kk <= fx (U s) / 2048 * (IZR Ku / 2 ^ 14)) by (apply Rmult_le_compat; lra). lra.
Qed.
Definition close_at (z : R) : Prop := Rabs (pol z - 2 * (G z * kk)) <= 7 / 1000.
Lemma le_sqrt v c : c <= 1 -> v ^ 2 <= 1 - c -> v <= sqrt (1 - c).
Proof. intros Hc L. apply Rle_trans with (Rabs v); [apply Rle_abs|]. rewrite <- sqrt_Rsqr_abs. apply sqrt_le_1_alt. unfold Rsqr. lra. Qed.
Lemma sq_div a : (IZR a / IZR Den) ^ 2 = IZR (a * a) / IZR (Den * Den).
Proof. rewrite !mult_IZR. pose proof Den_pos. field. lra. Qed.
Lemma check_close i s z : Inv i s -> Inv (S i) (next s) -> check s (next s) = true -> xi i <= z <= xi (S i) -> close_at z.
Proof.
  intros I I' Ck Hz. apply andb_true_iff in Ck as [Ck1 Ck2]. apply Z.leb_le in Ck1. pose proof Den_pos as Dp. pose proof ScR_pos as Sp. pose proof (xi_nonneg i) as X0. pose proof kk_pos as Kp.
  assert (DD : 0 < IZR (Den * Den)) by (rewrite mult_IZR; nra).
  unfold close_at. apply Rabs_le. split.
  - assert (2 * (G z * kk) - 7 / 1000 <= pol z); [|lra].
    apply Rle_trans with (2 * (G (xi (S i)) * kk) - 7 / 1000). { pose proof (G_incr z (xi (S i)) ltac:(lra) ltac:(lra)). nra. }
    apply Rle_trans with (IZR (Vn (next s)) / IZR Den); [now apply V_G|].
    apply orb_true_iff in Ck2 as [Ck2|Ck2]; apply Z.leb_le in Ck2.
    + apply Rle_trans with 0; [|apply sqrt_pos]. apply IZR_le in Ck2. unfold Rdiv. rewrite <- (Rmult_0_l (/ IZR Den)). apply Rmult_le_compat_r; auto. left. now apply Rinv_0_lt_compat.
    + apply Rle_trans with (pol (xi i)); [|apply pol_incr; lra]. apply le_sqrt; [apply C_le1|]. pose proof (i_cu _ _ I) as Q.
      apply Rle_trans with (1 - fx (cu s)); [|lra]. rewrite sq_div. apply IZR_le in Ck2. rewrite mult_IZR, (mult_IZR _ (Den * Den)), minus_IZR in Ck2. unfold fx.
      apply (Rmult_le_reg_r (IZR Sc * IZR (Den * Den))); [nra|].
      replace (IZR (Vn (next s) * Vn (next s)) / IZR (Den * Den) * (IZR Sc * IZR (Den * Den))) with (IZR Sc * IZR (Vn (next s) * Vn (next s))) by (field; lra).
      replace ((1 - IZR (cu s) / IZR Sc) * (IZR Sc * IZR (Den * Den))) with ((IZR Sc - IZR (cu s)) * IZR (Den * Den)) by (field; lra). exact Ck2.
  - assert (pol z <= 7 / 1000 + 2 * (G z * kk)); [|lra].
    destruct (W_G i s I) as [W1 W2].
    apply Rle_trans with (IZR (Wn s) / IZR Den). 2:{ pose proof (G_incr (xi i) z ltac:(lra) ltac:(lra)). nra. }
    apply Rle_trans with (pol (xi (S i))); [apply pol_incr; lra|]. unfold pol. rewrite <- (sqrt_pow2 (IZR (Wn s) / IZR Den)) by auto. apply sqrt_le_1_alt.
    destruct (i_cl _ _ I') as [_ Q]. apply Rle_trans with (1 - fx (cl (next s))); [lra|]. rewrite sq_div. apply IZR_le in Ck1. rewrite mult_IZR, (mult_IZR Sc), minus_IZR in Ck1. unfold fx.
    apply (Rmult_le_reg_r (IZR Sc * IZR (Den * Den))); [nra|].
    replace (IZR (Wn s * Wn s) / IZR (Den * Den) * (IZR Sc * IZR (Den * Den))) with (IZR Sc * IZR (Wn s * Wn s)) by (field; lra).
    replace ((1 - IZR (cl (next s)) / IZR Sc) * (IZR Sc * IZR (Den * Den))) with ((IZR Sc - IZR (cl (next s))) * IZR (Den * Den)) by (field; lra). exact Ck1.
Qed.
Lemma run_close n : forall i s, Inv i s -> fst (run n s) = true -> (forall z, xi i <= z < xi (i + n) -> close_at z) /\ Inv (i + n) (snd (run n s)).
Proof.
  induction n as [|n IH]; intros i s I Ck.
  - rewrite Nat.add_0_r. cbn. split; auto. intros z Hz. lra.
  - cbn [run] in Ck |- *. cbv zeta in Ck |- *. pose proof (inv_next i s I) as I'. destruct (check s (next s)) eqn:K; [|discriminate].
    destruct (IH (S i) (next s) I' Ck) as [A B]. rewrite Nat.add_succ_comm in A, B. split; auto.
    intros z Hz. destruct (Rle_dec z (xi (S i))); [apply (check_close i s z I I' K); lra|]. apply A. lra.
Qed.
Lemma xi_last : xi steps = 11 / 4.
Proof. unfold xi. rewrite INR_IZR_INZ. replace (Z.of_nat steps) with 5632%Z by (vm_compute; reflexivity). field. Qed.
Lemma last_close i s z : Inv i s -> xi i = 11 / 4 -> last_check s = true -> 11 / 4 <= z -> close_at z.
Proof.
  intros I X Ck Hz. apply andb_true_iff in Ck as [Ck1 Ck2]. cbv zeta in Ck2. apply Z.leb_le in Ck1, Ck2. pose proof Den_pos as Dp. pose proof ScR_pos as Sp. pose proof kk_pos as Kp.
  assert (DD : 0 < IZR (Den * Den)) by (rewrite mult_IZR; nra). pose proof (G_incr (11 / 4) z ltac:(lra) Hz) as GI.
  unfold close_at. apply Rabs_le. split.
  - assert (2 * (G z * kk) - 7 / 1000 <= pol z); [|lra].
    apply Rle_trans with (pol (11 / 4)); [|apply pol_incr; lra]. set (v := (11 * Vn s + 2000 * 4 * 2048 * eu s * Ku)%Z) in *.
    apply Rle_trans with (IZR v / (11 * IZR Den)).
    + rewrite (G_split (11 / 4)). pose proof (tail_le (11 / 4) z ltac:(lra) Hz) as T. pose proof (i_eu _ _ I) as He. pose proof (V_G i s I) as HV. rewrite X in He, HV.
      assert (Ev : IZR v / (11 * IZR Den) = IZR (Vn s) / IZR Den + 2 * (fx (eu s) / (11 / 4) * (IZR Ku / 2 ^ 14))).
      { unfold v, fx. rewrite plus_IZR, !mult_IZR. unfold Den, Sc. field. }
      rewrite Ev. assert (P0 : 0 < E (11 / 4)) by apply exp_pos. pose proof kk_bounds as [_ K2].
      assert (Q : RInt E (11 / 4) z * kk <= fx (eu s) / (11 / 4) * (IZR Ku / 2 ^ 14)).
      { apply Rle_trans with (E (11 / 4) / (11 / 4) * kk); [apply Rmult_le_compat_r; lra|]. apply Rmult_le_compat; lra. }
      lra.
    + apply le_sqrt; [apply C_le1|]. pose proof (i_cu _ _ I) as Q. rewrite X in Q. apply Rle_trans with (1 - fx (cu s)); [|lra].
      apply IZR_le in Ck2. rewrite mult_IZR, (mult_IZR _ (121 * (Den * Den))), minus_IZR, (mult_IZR 121), (mult_IZR v), (mult_IZR Den) in Ck2. unfold fx.
      apply (Rmult_le_reg_r (IZR Sc * (121 * (IZR Den * IZR Den)))); [apply Rmult_lt_0_compat; auto; rewrite mult_IZR in DD; lra|].
      replace ((IZR v / (11 * IZR Den)) ^ 2 * (IZR Sc * (121 * (IZR Den * IZR Den)))) with (IZR Sc * (IZR v * IZR v)) by (field; lra).
      replace ((1 - IZR (cu s) / IZR Sc) * (IZR Sc * (121 * (IZR Den * IZR Den)))) with ((IZR Sc - IZR (cu s)) * (121 * (IZR Den * IZR Den))) by (field; lra). exact Ck2.
  - assert (pol z <= 7 / 1000 + 2 * (G z * kk)); [|lra]. destruct (W_G i s I) as [W1 _]. rewrite X in W1.
    apply Rle_trans with 1. { unfold pol. rewrite <- sqrt_1 at 2. apply sqrt_le_1_alt. assert (0 < C z) by apply exp_pos. lra. }
    apply Rle_trans with (IZR (Wn s) / IZR Den).
    + apply (Rmult_le_reg_r (IZR Den)); auto. unfold Rdiv. rewrite Rmult_assoc, Rinv_l by lra. apply IZR_le in Ck1. lra.
    + nra.
Qed.
Lemma all_close z : 0 <= z -> close_at z.
Proof.
  intros Hz. pose proof run_ok as K. cbv zeta in K. apply andb_true_iff in K as [K1 K2]. destruct (run_close _ _ _ inv_0 K1) as [A B]. rewrite Nat.add_0_l in A, B.
  revert K2 B. generalize (snd (run steps st0)). intros s K2 B. rewrite xi_last, xi_0 in A. destruct (Rlt_dec z (11 / 4)); [apply A; lra|].
  eapply last_close; eauto; [apply xi_last|lra].
Qed.
Lemma cdf_half z : 0 <= z -> Rabs (gauss_cdf (gaussian_new 0 1) z - normal_cdf 0 1 z) <= 7 / 2000.
Proof.
  intros Hz. rewrite gauss_cdf_R, normal_cdf_std by lra. destruct (Rlt_dec (z - 0) 0); [lra|]. pose proof (all_close z Hz) as Q. unfold close_at, G, kk in Q. fold E.
  assert (P : polya 1 (z - 0) = pol z). { unfold polya, pol, C. do 3 f_equal. field. apply PI_neq0. }
  rewrite P. change (fun t : R => exp (- (t ^ 2 / 2))) with E. set (q := RInt E 0 z * / sqrt (2 * PI)) in *. unfold Rdiv at 1. fold q.
  apply Rabs_le. apply Rabs_le_between in Q. lra.
Qed.
Lemma normal_sym z : normal_cdf 0 1 (- z) = 1 - normal_cdf 0 1 z.
Proof.
  rewrite !normal_cdf_std. change (fun t : R => exp (- (t ^ 2 / 2))) with E.
  assert (I : RInt E 0 (- z) = - RInt E 0 z).
  { assert (L := RInt_comp_lin E (-1) 0 0 z). replace (-1 * 0 + 0) with 0 in L by ring. replace (-1 * z + 0) with (- z) in L by ring. rewrite <- L by apply E_int.
    rewrite (RInt_ext _ (fun y => opp (E y))). - apply (RInt_opp (V := R_CompleteNormedModule) E), E_int.
    - intros t _. unfold scal, opp. cbn. unfold mult. cbn. replace (E (-1 * t + 0)) with (E t); [ring|]. unfold E. f_equal. field. }
  rewrite I. unfold Rdiv. rewrite <- Ropp_mult_distr_l. lra.
Qed.
Lemma normal_scale m v x : 0 < v -> normal_cdf m v x = normal_cdf 0 1 ((x - m) / sqrt v).
Proof.
  intros Hv. unfold normal_cdf. f_equal. assert (Sv : 0 < sqrt v) by now apply sqrt_lt_R0. pose proof PI_RGT_0.
  assert (N : forall a b, ex_RInt (normal_density 0 1) a b).
  { intros a b. apply (ex_RInt_continuous (V := R_CompleteNormedModule)). intros t _. apply (ex_derive_continuous (K := R_AbsRing) (V := R_NormedModule)). unfold normal_density. auto_derive. auto. }
  rewrite (RInt_ext _ (fun t => scal (/ sqrt v) (normal_density 0 1 (/ sqrt v * t + - m / sqrt v)))).
  - rewrite (RInt_comp_lin (normal_density 0 1)) by apply N. f_equal; field; lra.
  - intros t _. unfold normal_density, scal. cbn. unfold mult. cbn.
    rewrite (sqrt_mult (2 * PI) v) by lra. rewrite Rmult_1_r with (r := 2 * PI).
    replace (- ((/ sqrt v * t + - m / sqrt v - 0) * ((/ sqrt v * t + - m / sqrt v - 0) * 1)) / (2 * 1)) with (- ((t - m) * ((t - m) * 1)) / (2 * v)).
    + set (e := exp _). assert (0 < sqrt (2 * PI)) by (apply sqrt_lt_R0; lra). field. split; apply Rgt_not_eq; auto.
    + rewrite <- (sqrt_sqrt v) at 1 by lra. field. lra.
Qed.
Theorem cdf_close m v : 0 < v -> forall x, Rabs (gauss_cdf (gaussian_new m v) x - normal_cdf m v x) <= 7 / 2000.
Proof.
  intros Hv x. rewrite (proj2 (gauss_sample_cdf m v Hv 0 x)), (normal_scale m v x Hv). set (z := (x - m) / sqrt v). destruct (Rle_dec 0 z) as [P|P]; [now apply cdf_half|].
  assert (Q := cdf_half (- z) ltac:(lra)). rewrite normal_sym in Q. destruct (gauss_cdf_shape 0 1) as (_ & _ & _ & Sy); [lra|]. specialize (Sy z).
  replace (0 + z) with z in Sy by ring. replace (0 - z) with (- z) in Sy by ring. replace (gauss_cdf (gaussian_new 0 1) (- z)) with (1 - gauss_cdf (gaussian_new 0 1) z) in Q by lra.
  apply Rabs_le. apply Rabs_le_between in Q. lra.
Qed.
Theorem cdf_accuracy m v : 0 < v -> forall x, Rabs (gauss_cdf (gaussian_new m v) x - normal_cdf m v x) <= 35 / 10000.
Proof. intros Hv x. pose proof (cdf_close m v Hv x). lra. Qed.
