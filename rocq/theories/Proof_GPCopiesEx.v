(** * Concrete cases for repeated samples *)
From Coq Require Import List Arith Lia Bool Reals Lra.
From Verif Require Import Base BaseLemmas Num NumFn Linalg LinalgR Model_Kernel Spec_Kernel Proof_Kernel Model_GP Spec_GP Proof_GP Spec_Equiv Spec_Succeeds Proof_Succeeds Proof_Oracles Proof_GPEx Proof_SucceedsEx Spec_GPCopies Proof_GPCopies Proof_GPPost.
Import ListNotations.
Local Open Scope R_scope.

Lemma const_mean_is c : mean_is (const_mean c) (fun _ => c).
Proof. intros X. unfold const_mean, nrows. induction (mrows X) as [|r l IH]; [reflexivity|]. cbn [length repeat map]. rewrite IH. f_equal. cbn. ring. Qed.
Lemma copies_trained : exists m1 m2,
  gp_train (k_squared_exp 1 1) (const_mean 1) cholesky_any solve_any solve_any (gp_new (/ 10)) Line [9; 4; 1] = (m1, Ok tt) /\
  gp_train (k_squared_exp 1 1) (const_mean 1) cholesky_any solve_any solve_any (gp_new (/ 5)) (copied 2 Line) (times 2 [9; 4; 1]) = (m2, Ok tt).
Proof.
  destruct gp_trains_ex as (m1 & E1). exists m1.
  pose proof (gp_succeeds (k_squared_exp 1 1) se (const_mean 1) cholesky_any solve_any solve_any (gp_new (/ 5)) (copied 2 Line) (times 2 [9; 4; 1]) cholesky_any_exact (triangular_any_exact _) (triangular_any_exact _)
    (copied_wf 2 Line Line_wf) (se_is _) (squared_exp_psd _ 1 1 ltac:(lra) ltac:(lra)) (squared_exp_sym 1 1) ltac:(cbn; lra) eq_refl eq_refl) as H.
  destruct (gp_train _ _ _ _ _ (gp_new (/ 5)) _ _) as [m2 r]. cbn in H. subst r. exists m2. auto.
Qed.
Lemma copies_noise : gp_noise (gp_new (/ 5)) = INR 2 * gp_noise (gp_new (/ 10)).
Proof. cbn. lra. Qed.
Lemma copies_posterior : forall m1, gp_train (k_squared_exp 1 1) (const_mean 1) cholesky_any solve_any solve_any (gp_new (/ 10)) Line [9; 4; 1] = (m1, Ok tt) ->
  exists out V, gp_get_posterior (k_squared_exp 1 1) (const_mean 1) solve_any m1 Line = Ok (out, V).
Proof.
  intros m1 E1. exact (posterior_succeeds (k_squared_exp 1 1) se (const_mean 1) cholesky_any solve_any solve_any (gp_new (/ 10)) m1 Line [9; 4; 1] Line (proj1 cholesky_any_exact) (triangular_any_exact _) Line_wf (se_is _) E1 Line_wf eq_refl eq_refl eq_refl (proj1 (triangular_any_exact _))).
Qed.
