(** * Further kernels that fade (C194) *)
From Coq Require Import List Arith Lia Bool Reals Lra.
From Verif Require Import Base BaseLemmas Num NumFn Linalg LinalgR Model_Kernel Spec_Kernel Proof_Kernel Spec_GP Spec_Far.
Import ListNotations.
Local Open Scope R_scope.

Lemma ln_le' x y : 0 < x -> x <= y -> ln x <= ln y.
Proof. intros H [L|<-]; [left; now apply ln_increasing|lra]. Qed.
Lemma grows_fades a (u : list R -> list R -> R) : (forall b, 0 <= b -> exists d, forall x x', length x = length x' -> d <= sqdist x x' -> b <= u x x') ->
  fades (fun x x' => a * exp (- u x x')).
Proof.
  intros G e He. assert (Q : 0 <= Rabs a / e) by (apply Rmult_le_pos; [apply Rabs_pos|left; now apply Rinv_0_lt_compat]).
  destruct (G _ Q) as (d & Hd). exists d. intros x x' L H. specialize (Hd x x' L H). set (v := u x x') in *.
  rewrite Rabs_mult, (Rabs_right (exp _)) by (left; apply exp_pos). rewrite exp_Ropp.
  pose proof (exp_ineq1_le v) as E. apply Rmult_le_reg_r with (exp v); [apply exp_pos|]. rewrite Rmult_assoc, Rinv_l by (pose proof (exp_pos v); lra).
  assert (K : Rabs a <= e * v). { apply Rmult_le_compat_l with (r := e) in Hd; [|lra]. replace (e * (Rabs a / e)) with (Rabs a) in Hd by (field; lra). exact Hd. }
  nra.
Qed.
Lemma exponential_fades_is dim l a : l <> 0 -> exists k, kernel_is dim (k_exponential l a) k /\ fades k.
Proof.
  intros Hl. assert (L2 : 0 < 2 * l * l) by nra. exists (fun x y => a * exp (- (/ (2 * l * l) * sqrt (sqdist x y)))). split.
  - intros x y Lx Ly. unfold k_exponential. rewrite rvsub_R. unfold rassert. rewrite Lx, Ly, Nat.eqb_refl. cbn [rbind].
    unfold norm2. rewrite sqdist_dot by congruence. cbn [nmul nexp ndiv nopp nsqrt NumR NumFnR]. unfold two. cbn [nadd nonev NumR].
    do 3 f_equal. field. auto.
  - apply (grows_fades a (fun x y => / (2 * l * l) * sqrt (sqdist x y))). intros b Hb. exists ((2 * l * l * b) ^ 2). intros x x' _ H.
    apply Rmult_le_reg_l with (2 * l * l); [exact L2|]. replace (2 * l * l * (/ (2 * l * l) * sqrt (sqdist x x'))) with (sqrt (sqdist x x')) by (field; lra).
    assert (P : 0 <= 2 * l * l * b) by (apply Rmult_le_pos; lra). rewrite <- (sqrt_pow2 (2 * l * l * b) P). now apply sqrt_le_1_alt.
Qed.
Lemma rational_fades_is dim a l : 0 < a -> l <> 0 -> exists k, kernel_is dim (k_rational_quadratic a l) k /\ fades k.
Proof.
  intros Ha Hl. assert (Pm : 0 < / (2 * a * l * l)). { apply Rinv_0_lt_compat. assert (0 < l * l) by nra. rewrite Rmult_assoc. apply Rmult_lt_0_compat; lra. }
  exists (fun x y => 1 * exp (- (a * ln (1 + / (2 * a * l * l) * sqdist x y)))). split.
  - intros x y Lx Ly. unfold k_rational_quadratic. rewrite rvsub_R. rewrite Lx, Ly, Nat.eqb_refl. cbn [rbind].
    rewrite sqdist_dot by congruence. unfold two. cbn [nmul npowf ndiv nopp nadd nonev NumR NumFnR].
    pose proof (sqdist_ge0 x y). unfold Rpowf.
    replace (sqdist x y / ((1 + 1) * a * l * l)) with (/ (2 * a * l * l) * sqdist x y) by (field; lra).
    destruct (Rlt_dec 0 _) as [_|N]; [|exfalso; apply N; nra]. unfold Rpower. rewrite Rmult_1_l. f_equal. f_equal. ring.
  - set (c := / (2 * a * l * l)) in *. apply (grows_fades 1 (fun x y => a * ln (1 + c * sqdist x y))). intros b Hb. exists (exp (b / a) / c). intros x x' _ H.
    apply Rmult_le_reg_l with (/ a); [now apply Rinv_0_lt_compat|]. replace (/ a * (a * ln (1 + c * sqdist x x'))) with (ln (1 + c * sqdist x x')) by (field; lra).
    replace (/ a * b) with (b / a) by (unfold Rdiv; ring). rewrite <- (ln_exp (b / a)). apply ln_le'; [apply exp_pos|].
    apply Rmult_le_compat_l with (r := c) in H; [|lra]. replace (c * (exp (b / a) / c)) with (exp (b / a)) in H by (field; lra). lra.
Qed.
(** The linear kernel does not. *)
Lemma linear_not_fades c k : kernel_is 2 (k_linear c) k -> ~ fades k.
Proof.
  intros Hk H. destruct (H 1 ltac:(lra)) as (d & Hd). set (z := Rabs d + Rabs c + 2).
  pose proof (Rle_abs d). pose proof (Rabs_pos d). pose proof (Rabs_pos c).
  assert (E2 : k [z; 0] [- z; 0] = - z * z + c). { specialize (Hk [z; 0] [- z; 0] eq_refl eq_refl). unfold k_linear in Hk. cbn in Hk. injection Hk as Hk. rewrite <- Hk. ring. }
  assert (Q : d <= sqdist [z; 0] [- z; 0]). { unfold sqdist. cbn [length sumR nth]. assert (z <= z * z) by (unfold z; nra). assert (d <= z) by (unfold z; lra). nra. }
  specialize (Hd [z; 0] [- z; 0] eq_refl Q). rewrite E2 in Hd.
  assert (K : z * z - c <= 1). { eapply Rle_trans; [|exact Hd]. rewrite <- Rabs_Ropp. eapply Rle_trans; [|apply Rle_abs]. lra. }
  pose proof (Rle_abs c). unfold z in K. nra.
Qed.
