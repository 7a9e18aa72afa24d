(** Mixture models with a weight that is zero, in arithmetic with NaN. *)
From Coq Require Import List Arith Lia Bool Reals Lra.
From Verif Require Import Base BaseLemmas Num NumX NumFn Linalg Model_Rand Model_Optim Model_GP Model_NNet Model_GMM Spec_GMM.
Import ListNotations.
Local Open Scope R_scope.

Lemma xdiv_fin a b : b <> 0 -> xdiv (Fin a) (Fin b) = Fin (a / b).
Proof. intros H. unfold xdiv. destruct (Req_EM_T b 0); [contradiction|reflexivity]. Qed.
Lemma xdiv_00 a b : a = 0 -> b = 0 -> xdiv (Fin a) (Fin b) = NaN.
Proof.
  intros -> ->. unfold xdiv. destruct (Req_EM_T 0 0); [|contradiction]. unfold sgn_inf. destruct (Rlt_dec 0 0); [lra|]. reflexivity.
Qed.

Theorem zero_weights : exists m, gmm_with_weights 2 [Fin 0; Fin 0] = Ok m /\ gmm_mix_weights m = [NaN; NaN].
Proof.
  unfold gmm_with_weights. cbn [length Nat.eqb negb existsb nltb NumXI xltb nzero]. destruct (Rlt_dec 0 0); [lra|]. cbn [orb].
  eexists. split; [reflexivity|]. cbn [gmm_mix_weights map ndiv NumXI]. unfold vsum. cbn [fold_left nadd NumXI xadd nzero].
  rewrite !xdiv_00 by lra. reflexivity.
Qed.

(** The decomposition of a 1x1 matrix, as [PartialPivLu] computes it. *)
Definition lup1 (C : matrix X) : res (X * matrix X) :=
  match mrows C with
  | [[Fin c]] => if Req_EM_T c 0 then Panic else Ok (Fin c, Mat [[Fin (/ c)]] 1)
  | [[_]] => Ok (NaN, Mat [[NaN]] 1)
  | _ => Panic
  end.
Definition gmm10 : GMM X :=
  {| gmm_comp_count := 2; gmm_mix_weights := [Fin 1; Fin 0]; gmm_means := None; gmm_covars := None; gmm_log_lik := Fin 0;
     gmm_max_iters := 1; gmm_cov_option := CovFull |}.
Definition X02 : matrix X := Mat [[Fin 0]; [Fin 2]] 1.
Lemma gmm10_made : exists m, gmm_with_weights 2 [Fin 1; Fin 0] = Ok m /\ gmm10 = gmm_set_max_iters m 1.
Proof.
  unfold gmm_with_weights. cbn [length Nat.eqb negb existsb nltb NumXI xltb nzero]. destruct (Rlt_dec 0 0); [lra|]. destruct (Rlt_dec 1 0); [lra|]. cbn [orb].
  eexists. split; [reflexivity|]. unfold gmm_set_max_iters, gmm10. cbn [gmm_mix_weights map ndiv NumXI gmm_comp_count gmm_means gmm_covars gmm_log_lik gmm_cov_option].
  unfold vsum. cbn [fold_left nadd NumXI xadd nzero]. rewrite !xdiv_fin by lra. repeat f_equal; field; lra.
Qed.
Lemma cov02 : initialize_covariances gmm10 X02 (Fin 1) = Mat [[Fin 2]] 1.
Proof.
  unfold initialize_covariances, gmm10. cbn [gmm_cov_option]. unfold col_mean, vsum, col. cbn -[xdiv]. rewrite xdiv_fin by lra. cbn. unfold xsub, xopp, xadd. cbn.
  unfold mmap. cbn. repeat f_equal; field.
Qed.
Definition p10 (x mu : R) : R := exp ((x - mu) * (/ 2) * (x - mu) * - (1 / 2)) / sqrt 2.
Lemma p10_pos x mu : 0 < p10 x mu.
Proof. apply Rdiv_lt_0_compat; [apply exp_pos|apply sqrt_lt_R0; lra]. Qed.
Definition M02 : matrix X := Mat [[Fin 0]; [Fin 2]] 1.
Definition di2 : list (X * matrix X) := [(Fin 2, Mat [[Fin (/ 2)]] 1); (Fin 2, Mat [[Fin (/ 2)]] 1)].
Lemma pdf10 x j : (j < 2)%nat -> gmm_pdf M02 di2 [Fin x] j = Ok (Fin (p10 x (nth j [0; 2] 0))).
Proof.
  intros Hj. assert (HS : sqrt 2 <> 0) by (apply Rgt_not_eq, sqrt_lt_R0; lra).
  destruct j as [|[|j]]; [| |lia]; unfold gmm_pdf, rvsub, rmat_mul; cbn -[xdiv xsqrt]; unfold dot, vsum, xsub; cbn -[xdiv xsqrt]; rewrite (xdiv_fin 1) by lra; unfold xsqrt; cbn -[xdiv];
    (destruct (Rlt_dec 2 0); [lra|]); rewrite xdiv_fin by exact HS; unfold p10; do 4 f_equal; field.
Qed.
Lemma row_eq a b c a' b' c' : a = a' -> b = b' -> c = c' -> Ok ([Fin a; Fin b], Fin c) = Ok ([Fin a'; Fin b'], Fin c').
Proof. intros -> -> ->. reflexivity. Qed.
Lemma row10 x : gmm_row gmm10 M02 di2 [Fin x] = Ok ([Fin 1; Fin 0], Fin (p10 x 0)).
Proof.
  unfold gmm_row. cbn [gmm_comp_count gmm10 seq rmap]. rewrite !pdf10 by lia. cbn [nth length]. unfold dot, vsum. cbn -[xdiv].
  pose proof (p10_pos x 0). rewrite !xdiv_fin by lra. apply row_eq; try (field; lra); ring.
Qed.
Definition start10 : GMM X := set_start gmm10 M02 [Mat [[Fin 2]] 1; Mat [[Fin 2]] 1].
Definition W10 : matrix X := Mat [[Fin 1; Fin 0]; [Fin 1; Fin 0]] 2.
Lemma lup1_2 : lup1 (Mat [[Fin 2]] 1) = Ok (Fin 2, Mat [[Fin (/ 2)]] 1).
Proof. unfold lup1. cbn. destruct (Req_EM_T 2 0); [lra|reflexivity]. Qed.
Lemma estep10 : membership_weights lup1 start10 X02 = Ok (W10, Fin (- ln 2 - 1)).
Proof.
  unfold membership_weights. cbn [start10 set_start gmm_covars gmm_means rmap]. rewrite lup1_2. cbn -[gmm_row nln vsum].
  change (gmm_row start10 M02) with (gmm_row gmm10 M02). fold di2. rewrite !row10. cbn -[nln vsum]. unfold W10. repeat f_equal. unfold vsum. cbn.
  pose proof (p10_pos 0 0). pose proof (p10_pos 2 0). destruct (Rlt_dec 0 (p10 0 0)); [|contradiction]. destruct (Rlt_dec 0 (p10 2 0)); [|contradiction].
  cbn. f_equal. unfold p10.
  assert (HS : 0 < sqrt 2) by (apply sqrt_lt_R0; lra).
  assert (HL : ln (sqrt 2) = ln 2 / 2).
  { assert (E : ln (sqrt 2 * sqrt 2) = ln 2) by (rewrite sqrt_sqrt by lra; reflexivity). rewrite ln_mult in E by auto. lra. }
  unfold Rdiv at 1 3. rewrite !ln_mult by (try apply exp_pos; apply Rinv_0_lt_compat; exact HS). rewrite !ln_exp, ln_Rinv, HL by exact HS. field.
Qed.
Lemma ln2_pos : 0 < ln 2.
Proof. rewrite <- ln_1. apply ln_increasing; lra. Qed.
Definition end10 : GMM X := update_params (set_log_lik start10 (Fin (- ln 2 - 1))) X02 W10.
Lemma pow10_X n : @pow10 X NumXI n = Fin (10 ^ n).
Proof.
  induction n as [|n IH]; [reflexivity|]. change (@pow10 X NumXI (S n)) with (nmul (nofnat 10) (@pow10 X NumXI n)). rewrite IH.
  cbn [nmul nofnat NumXI xmul]. f_equal. rewrite <- tech_pow_Rmult. replace (INR 10) with 10 by (cbn; lra). reflexivity.
Qed.
Lemma loop10 : em_loop lup1 1 start10 X02 = (end10, Ok tt).
Proof.
  cbn [em_loop]. rewrite estep10. rewrite pow10_X. cbn [nonev ndiv NumXI]. rewrite xdiv_fin by (apply pow_nonzero; lra).
  cbn -[end10 update_params pow]. destruct (Rlt_dec _ _) as [H|_]; [exfalso|reflexivity]. pose proof ln2_pos.
  rewrite Rabs_left in H by lra. assert (1 / 10 ^ 15 <= 1); [|lra].
  apply Rmult_le_reg_r with (10 ^ 15); [apply pow_lt; lra|]. unfold Rdiv. rewrite Rmult_1_l, Rinv_l by (apply pow_nonzero; lra). lra.
Qed.
Lemma train10 : gmm_train lup1 gmm10 X02 = RRet (end10, Ok tt).
Proof.
  unfold gmm_train. change (negb (1 <? nrows X02)%nat) with false. cbv iota zeta.
  replace (ndiv (nonev (F := X)) (nofnat (nrows X02 - 1))) with (Fin 1).
  2:{ cbn. destruct (Req_EM_T 1 0); [lra|]. f_equal. field. }
  rewrite cov02. cbn [gmm_comp_count gmm10 gmm_max_iters]. change (reservoir_sample (seq 0 (nrows X02)) 2) with (RRet [0%nat; 1%nat]).
  cbn [rnd_bind rows_opt X02 mrows nth_error rnd_opt]. change (RRet (em_loop lup1 1 start10 X02) = RRet (end10, Ok tt)). rewrite loop10. reflexivity.
Qed.
Lemma end10_value : gmm_mix_weights end10 = [Fin 1; Fin 0] /\ gmm_means end10 = Some (Mat [[Fin 1]; [NaN]] 1) /\ gmm_covars end10 = Some [Mat [[Fin 1]] 1; Mat [[NaN]] 1].
Proof.
  unfold end10, update_params. cbn [gmm_mix_weights gmm_means gmm_covars].
  split.
  - unfold vsum, col. cbn -[xdiv]. rewrite !xdiv_fin by lra. repeat f_equal; field.
  - unfold col, vsum. split.
    + cbn -[xdiv]. unfold dot, vsum. cbn -[xdiv]. rewrite (xdiv_00 (0 + 0 * 0 + 0 * 2) (0 + 0 + 0)) by lra. rewrite xdiv_fin by lra. do 4 f_equal. f_equal. field.
    + cbn -[xdiv]. unfold dot, vsum. cbn -[xdiv]. rewrite (xdiv_00 (0 + 0 * 0 + 0 * 2) (0 + 0 + 0)) by lra. rewrite xdiv_fin by lra. cbn -[xdiv].
      unfold mmap. cbn -[xdiv]. rewrite xdiv_fin by lra. do 5 f_equal. f_equal. field.
Qed.
Definition all_nan (P : matrix X) : Prop := Forall (Forall (fun x => x = NaN)) (mrows P).
Lemma row_nan x : gmm_row end10 (Mat [[Fin 1]; [NaN]] 1) [(Fin 1, Mat [[Fin (/ 1)]] 1); (NaN, Mat [[NaN]] 1)] [Fin x] = Ok ([NaN; NaN], NaN).
Proof.
  unfold gmm_row. rewrite (proj1 end10_value). change (gmm_comp_count end10) with 2%nat. cbn [seq rmap].
  unfold gmm_pdf, rvsub, rmat_mul. cbn -[xdiv xsqrt]. unfold dot, vsum, xsub. cbn -[xdiv xsqrt].
  rewrite (xdiv_fin 1) by lra. unfold xsqrt. destruct (Rlt_dec 1 0); [lra|]. cbn -[xdiv]. rewrite xdiv_fin by (rewrite sqrt_1; lra). cbn. reflexivity.
Qed.
Theorem zero_weight : outcome (gmm_train lup1 gmm10 X02) (Some (end10, Ok tt)) /\
  gmm_means end10 = Some (Mat [[Fin 1]; [NaN]] 1) /\ gmm_predict lup1 end10 X02 = Ok (Mat [[NaN; NaN]; [NaN; NaN]] 2).
Proof.
  split; [rewrite train10; constructor|]. destruct end10_value as (_ & EM & EC). split; [exact EM|].
  unfold gmm_predict, membership_weights. rewrite EM, EC. cbn [rmap].
  assert (E1 : lup1 (Mat [[Fin 1]] 1) = Ok (Fin 1, Mat [[Fin (/ 1)]] 1)) by (unfold lup1; cbn; destruct (Req_EM_T 1 0); [lra|reflexivity]).
  rewrite E1. cbn -[gmm_row nln vsum end10]. rewrite !row_nan. cbn -[end10]. reflexivity.
Qed.
