(** Concrete cases for the examples of [Props_GP]: one training row. *)
From Coq Require Import List Arith Lia Bool Reals Lra.
From Verif Require Import Base BaseLemmas Num NumFn Linalg LinalgR Spec_Calc MatR Proof_Toolkit Model_Kernel Spec_Kernel Proof_Kernel Model_GP Spec_GP Proof_GP.
Import ListNotations.
Local Open Scope R_scope.

Definition cholesky1 (A : matrix R) : option (matrix R) :=
  match A with Mat [[a]] 1 => if Rlt_dec 0 a then Some (Mat [[sqrt a]] 1) else None | _ => None end.
Definition triangular1 (L : matrix R) (b : list R) : res (list R) :=
  match L, b with Mat [[l]] 1, [v] => if Req_EM_T l 0 then Err LinearAlgebra else Ok [v / l] | _, _ => Panic end.
Lemma cholesky1_sound : cholesky_sound cholesky1.
Proof.
  intros A L W Sq H. unfold cholesky1 in H. destruct A as [[|[|a [|]] [|]] [|[|]]]; try discriminate.
  destruct (Rlt_dec 0 a) as [P|]; [|discriminate]. injection H as <-. repeat split; try reflexivity.
  - repeat constructor.
  - intros i j Hij Hj. cbn in Hj. lia.
  - intros [|v [|]] Lv; try discriminate. unfold mat_vec, transpose. cbn [mrows map mcols seq col]. cbn [nth]. unfold dot, vsum. cbn.
    apply (f_equal2 (@cons R)); [|reflexivity]. rewrite <- (sqrt_sqrt a) at 3 by lra. ring.
Qed.
Lemma triangular1_sound : (forall shape, triangular_sound shape triangular1).
Proof.
  intros shape L b x W _ H. unfold triangular1 in H. destruct L as [[|[|l [|]] [|]] [|[|]]]; try discriminate. destruct b as [|v [|]]; try discriminate.
  destruct (Req_EM_T l 0) as [|Z]; [discriminate|]. apply Ok_inj in H. subst x. split; [reflexivity|]. split.
  - unfold mat_vec, dot, vsum. cbn. apply (f_equal2 (@cons R)); [field; auto|reflexivity].
  - intros [|u [|]] Lu E; try discriminate. unfold mat_vec, dot, vsum in E. cbn in E. injection E as E. apply (f_equal2 (@cons R)); [|reflexivity].
    rewrite <- E. field. auto.
Qed.
Definition GX : matrix R := Mat [[1]] 1.
Lemma GX_wf : mwf GX.
Proof. repeat constructor. Qed.
Definition se (x y : list R) : R := 1 * exp (- sqdist x y / (2 * 1 * 1)).
Lemma se_is dim : kernel_is dim (k_squared_exp 1 1) se.
Proof. intros x y Lx Ly. apply squared_exp_R. congruence. Qed.
Lemma se_11 : se [1] [1] = 1.
Proof. unfold se, sqdist. cbn [length sumR nth]. replace (- (0 + (1 - 1) ^ 2) / (2 * 1 * 1)) with 0 by field. rewrite exp_0. ring. Qed.
(** Kernel value 1 and noise 3: K + noise = 4, L = 2, alpha = (9 - 1) / 4. *)
Lemma gp_train_ex noise : 0 <= noise -> exists self', gp_train (k_squared_exp 1 1) (const_mean 1) cholesky1 triangular1 triangular1 (gp_new noise) GX [9] = (self', Ok tt) /\
  gp_alpha self' = Some [8 / (1 + noise)] /\ gp_train_mat self' = Some (Mat [[sqrt (1 + noise)]] 1) /\ gp_train_data self' = Some GX.
Proof.
  intros Hn. unfold gp_train. rewrite (ker_mat_R 1 (k_squared_exp 1 1) se); auto using se_is; try (repeat constructor).
  cbn [unwrap rbind]. set (A := mzip _ _ _).
  assert (EA : A = Mat [[1 + noise]] 1).
  { unfold A, gram, scaled_identity, mzip. cbn [mrows GX nrows length map seq mcols gp_noise gp_new map2 Nat.eqb nadd nmul nonev NumR]. rewrite se_11.
    apply (f_equal2 Mat); [|reflexivity]. apply (f_equal2 (@cons (list R))); [|reflexivity]. apply (f_equal2 (@cons R)); [ring|reflexivity]. }
  rewrite EA. unfold cholesky1. destruct (Rlt_dec 0 (1 + noise)) as [P|]; [|exfalso; lra].
  pose proof (sqrt_lt_R0 _ P) as Sp. pose proof (sqrt_sqrt (1 + noise) ltac:(lra)) as Ss.
  cbn [const_mean nrows GX mrows length repeat map]. unfold Model_Optim.rvsub, rassert. cbn [length Nat.eqb rbind]. unfold triangular1 at 1. cbn [vsub map2].
  destruct (Req_EM_T (sqrt (1 + noise)) 0) as [|_]; [lra|]. cbn [unwrap rbind].
  unfold transpose. cbn [mcols seq map col mrows nth nrows length]. unfold triangular1.
  destruct (Req_EM_T (sqrt (1 + noise)) 0) as [|_]; [lra|]. cbn [unwrap rbind].
  eexists. split; [reflexivity|]. cbn [gp_alpha gp_train_mat gp_train_data]. repeat split. f_equal. apply (f_equal2 (@cons R)); [|reflexivity].
  cbn [nsub nadd nzero NumR].
  replace (8 / (1 + noise)) with (8 / (sqrt (1 + noise) * sqrt (1 + noise))) by (rewrite Ss; reflexivity). field. lra.
Qed.
Lemma gp_posterior_ex self' : gp_alpha self' = Some [2] -> gp_train_mat self' = Some (Mat [[sqrt (1 + 3)]] 1) -> gp_train_data self' = Some GX ->
  exists out V, gp_get_posterior (k_squared_exp 1 1) (const_mean 1) triangular1 self' (Mat [[0]; [5]] 1) = Ok (out, V).
Proof.
  intros E1 E2 E3. unfold gp_get_posterior. rewrite E1, E2, E3.
  rewrite (ker_mat_R 1 (k_squared_exp 1 1) se); auto using se_is; try (repeat constructor). cbn [rbind].
  unfold gram at 1. cbn [mrows map GX]. unfold Model_Regression.rmat_vec, rassert. cbn [mcols gram nrows GX mrows length Nat.eqb rbind].
  unfold mat_vec. cbn [mrows map]. cbn [const_mean nrows GX mrows length repeat map]. unfold Model_Optim.rvadd, rassert. cbn [length Nat.eqb rbind].
  assert (P : sqrt (1 + 3) <> 0) by (apply Rgt_not_eq, sqrt_lt_R0; lra).
  cbn [rmap]. unfold triangular1. destruct (Req_EM_T (sqrt (1 + 3)) 0) as [|_]; [contradiction|]. cbn [unwrap rbind].
  rewrite (ker_mat_R 1 (k_squared_exp 1 1) se); auto using se_is; try (repeat constructor). cbn [rbind]. eexists _, _. reflexivity.
Qed.
Lemma gp_ex : exists self', gp_train (k_squared_exp 1 1) (const_mean 1) cholesky1 triangular1 triangular1 (gp_new 3) GX [9] = (self', Ok tt) /\
  exists out V, gp_get_posterior (k_squared_exp 1 1) (const_mean 1) triangular1 self' (Mat [[0]; [5]] 1) = Ok (out, V).
Proof.
  destruct (gp_train_ex 3) as [s [T [E1 [E2 E3]]]]; [lra|]. exists s. split; auto. apply gp_posterior_ex; auto. rewrite E1. f_equal. f_equal. lra.
Qed.
Lemma gp_ex0 : exists self', gp_train (k_squared_exp 1 1) (const_mean 1) cholesky1 triangular1 triangular1 (gp_new 0) GX [9] = (self', Ok tt).
Proof. destruct (gp_train_ex 0) as [s [T _]]; [lra|]. now exists s. Qed.
Lemma solves_ex : solves se 3 GX [se [0] [1] / 4] (fun m => se [0] (pt GX m)).
Proof.
  split; [reflexivity|]. intros [|i] Hi; [|cbn in Hi; lia]. cbn [nrows GX mrows length sumR pt nth]. change (pt GX 0) with [1]. rewrite se_11. cbn [nth]. field.
Qed.
