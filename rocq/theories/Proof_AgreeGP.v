(** * Data that agree with a Gaussian process change nothing (C193) *)
From Coq Require Import List Arith Lia Bool Reals Lra.
From Verif Require Import Base BaseLemmas Num NumFn Linalg LinalgR Spec_Calc MatR Model_Kernel Spec_Kernel Proof_Kernel Model_GP Spec_GP Proof_GP Proof_GPEx Proof_GPMono Spec_Succeeds Proof_Succeeds Proof_Oracles Proof_SucceedsEx Spec_GPCopies Proof_GPCopiesEx Spec_Agree Proof_Agree.
Import ListNotations.
Local Open Scope R_scope.

Section GP.
  Context (ker : Kernel R) (k : list R -> list R -> R) (mean : MeanFunc R) (f : list R -> R) (cholesky : matrix R -> option (matrix R)) (solve_l solve_u : matrix R -> list R -> res (list R)).
  Hypothesis CH : cholesky_sound cholesky.
  Hypothesis SL : triangular_sound lower_triangular solve_l.
  Hypothesis SU : triangular_sound upper_triangular solve_u.
  Hypothesis M : mean_is mean f.
  Context (X Z : matrix R) (y t : list R) (s1 s1' s2 s2' : GaussianProcess R).
  Hypothesis W : mwf X.
  Hypothesis WZ : mwf Z.
  Hypothesis C : mcols Z = mcols X.
  Hypothesis KI : kernel_is (mcols X) ker k.
  Hypothesis NS : gp_noise s2 = gp_noise s1.
  Hypothesis T1 : gp_train ker mean cholesky solve_l solve_u s1 X y = (s1', Ok tt).
  Hypothesis P1 : gp_predict ker mean s1' Z = Ok t.
  Hypothesis T2 : gp_train ker mean cholesky solve_l solve_u s2 (stacked X Z) (y ++ t) = (s2', Ok tt).

  Let mean_len Xs : length (mean Xs) = nrows Xs.
  Proof. rewrite M. apply map_length. Qed.
  Let mean_nth Xs i : (i < nrows Xs)%nat -> nth i (mean Xs) 0 = f (pt Xs i).
  Proof. intros H. rewrite M. now rewrite (nth_map _ _ _ _ []) by exact H. Qed.
  Let padded (a : list R) : list R := a ++ repeat 0 (nrows Z).
  Let old i : (i < nrows X)%nat -> pt (stacked X Z) i = pt X i.
  Proof. apply stacked_old; auto. Qed.
  Let new i : pt (stacked X Z) (nrows X + i) = pt Z i.
  Proof. apply stacked_new; auto. Qed.
  Let padded_sum a h : length a = nrows X -> sumR (nrows X + nrows Z) (fun j => h (pt (stacked X Z) j) * nth j (padded a) 0) = sumR (nrows X) (fun j => h (pt X j) * nth j a 0).
  Proof.
    intros L. rewrite sumR_app, (BaseLemmas.sumR_zero (nrows Z)).
    - rewrite Rplus_0_r. apply sumR_ext. intros j Hj. rewrite old by auto. unfold padded. now rewrite app_nth1 by lia.
    - intros j Hj. unfold padded. rewrite app_nth2 by lia. rewrite nth_repeat. ring.
  Qed.
  Theorem gp_agree Xs : mwf Xs -> mcols Xs = mcols X -> gp_predict ker mean s2' Xs = gp_predict ker mean s1' Xs.
  Proof.
    intros Ws Cs. pose proof (stacked_wf X Z W WZ C) as W'. pose proof (stacked_nrows X Z) as N'.
    destruct (gp_alpha_solves ker k mean cholesky solve_l solve_u s1 s1' X y CH SL SU W KI T1) as (Ly & a & Ea & Sa & _).
    destruct (gp_alpha_solves ker k mean cholesky solve_l solve_u s2 s2' (stacked X Z) (y ++ t) CH SL SU W' KI T2) as (Ly' & a' & Ea' & Sa' & Ua').
    rewrite mean_len in Ly.
    destruct (gp_predict_mean ker k mean cholesky solve_l solve_u s1 s1' X y CH SL SU W KI T1 Z WZ C (mean_len Z)) as (b & o & Eb & Po & Lt & Ht).
    rewrite Ea in Eb. injection Eb as <-. rewrite P1 in Po. injection Po as <-.
    assert (E : padded a = a').
    { apply Ua'. destruct Sa as (La & Sa). split; [unfold padded; rewrite app_length, repeat_length, N'; lia|]. rewrite N'. intros i Hi.
      rewrite (padded_sum a (k (pt (stacked X Z) i)) La), NS. rewrite mean_nth by (rewrite N'; exact Hi).
      destruct (Nat.lt_ge_cases i (nrows X)) as [L|L].
      - rewrite old by auto. unfold padded. rewrite !app_nth1 by lia. rewrite (Sa i L), mean_nth by auto. reflexivity.
      - replace i with (nrows X + (i - nrows X))%nat by lia. set (j := (i - nrows X)%nat). assert (Hj : (j < nrows Z)%nat) by (unfold j; lia).
        rewrite new. unfold padded. rewrite !app_nth2 by lia. rewrite La, Ly. replace (nrows X + j - nrows X)%nat with j by lia.
        rewrite nth_repeat. rewrite Ht, mean_nth by auto. unfold against. ring. }
    destruct (gp_predict_mean ker k mean cholesky solve_l solve_u s1 s1' X y CH SL SU W KI T1 Xs Ws Cs (mean_len Xs)) as (b & o & Eb & Po & Lo & Ho).
    destruct (gp_predict_mean ker k mean cholesky solve_l solve_u s2 s2' (stacked X Z) (y ++ t) CH SL SU W' KI T2 Xs Ws Cs (mean_len Xs)) as (b' & o' & Eb' & Po' & Lo' & Ho').
    rewrite Ea in Eb. injection Eb as <-. rewrite Ea' in Eb'. injection Eb' as <-. rewrite Po, Po'. f_equal.
    apply (nth_ext _ _ 0 0); [congruence|]. intros i Hi. rewrite Lo' in Hi. rewrite Ho, Ho' by auto. f_equal. rewrite <- E. unfold against. rewrite N'.
    apply (padded_sum a (k (pt Xs i))). apply Sa.
  Qed.
End GP.

(** ** A concrete case *)
Lemma agree_gp_case : exists m1 m2 t,
  gp_train (k_squared_exp 1 1) (const_mean 1) cholesky_any solve_any solve_any (gp_new (/ 10)) Line [9; 4; 1] = (m1, Ok tt) /\
  gp_predict (k_squared_exp 1 1) (const_mean 1) m1 Tri = Ok t /\
  gp_train (k_squared_exp 1 1) (const_mean 1) cholesky_any solve_any solve_any (gp_new (/ 10)) (stacked Line Tri) ([9; 4; 1] ++ t) = (m2, Ok tt).
Proof.
  destruct gp_trains_ex as (m1 & E1). exists m1.
  destruct (gp_predict_mean (k_squared_exp 1 1) se (const_mean 1) cholesky_any solve_any solve_any (gp_new (/ 10)) m1 Line [9; 4; 1] (proj1 cholesky_any_exact) (proj1 (triangular_any_exact _)) (proj1 (triangular_any_exact _))
    Line_wf (se_is _) E1 Tri Tri_wf eq_refl eq_refl) as (a & t & _ & Et & Lt & _).
  assert (Ly : length ([9; 4; 1] ++ t) = nrows (stacked Line Tri)) by (rewrite app_length, Lt; reflexivity).
  assert (H10 : 0 < gp_noise (gp_new (F := R) (/ 10))) by (cbn; lra).
  pose proof (gp_succeeds (k_squared_exp 1 1) se (const_mean 1) cholesky_any solve_any solve_any (gp_new (/ 10)) (stacked Line Tri) ([9; 4; 1] ++ t) cholesky_any_exact (triangular_any_exact _) (triangular_any_exact _)
    (stacked_wf Line Tri Line_wf Tri_wf eq_refl) (se_is _) (squared_exp_psd _ 1 1 ltac:(lra) ltac:(lra)) (squared_exp_sym 1 1) H10 Ly eq_refl) as H.
  destruct (gp_train _ _ _ _ _ (gp_new (/ 10)) (stacked Line Tri) _) as [m2 r] eqn:E2. cbn in H. subst r. exists m2, t. rewrite E2. auto.
Qed.
