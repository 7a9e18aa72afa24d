(** Bounds on [exp] and [PI] by partial sums. *)
From Coq Require Import Reals Lra Lia Arith Machin.
From Verif Require Import Base BaseLemmas.
Local Open Scope R_scope.

Definition texp (n : nat) (u : R) : R := sumR (S n) (fun k => u ^ k / INR (fact k)).

Lemma texp_S n u : texp (S n) u = texp n u + u ^ S n / INR (fact (S n)).
Proof. reflexivity. Qed.
Lemma texp_0 n : texp n 0 = 1.
Proof. induction n as [|n IH]; [unfold texp; cbn; lra|]. rewrite texp_S, IH, pow_i by lia. unfold Rdiv. lra. Qed.
Lemma texp_deriv n u : derivable_pt_lim (texp (S n)) u (texp n u).
Proof.
  induction n as [|n IH].
  - apply (derivable_pt_lim_ext (fun v => 1 + v)); [intros v; unfold texp; cbn; field|].
    replace (texp 0 u) with (0 + 1) by (unfold texp; cbn; field).
    apply (derivable_pt_lim_plus (fun _ => 1) id); [apply derivable_pt_lim_const|apply derivable_pt_lim_id].
  - apply (derivable_pt_lim_ext (fun v => texp (S n) v + / INR (fact (S (S n))) * v ^ S (S n))).
    { intros v. rewrite (texp_S (S n)). unfold Rdiv. ring. }
    replace (texp (S n) u) with (texp n u + / INR (fact (S (S n))) * (INR (S (S n)) * u ^ S n)).
    + apply (derivable_pt_lim_plus (texp (S n)) (fun v => / INR (fact (S (S n))) * v ^ S (S n))); [exact IH|].
      apply (derivable_pt_lim_scal (fun v => v ^ S (S n))). apply (derivable_pt_lim_pow u (S (S n))).
    + rewrite texp_S. f_equal. rewrite (fact_simpl (S n)), mult_INR. field. split; [apply INR_fact_neq_0|apply not_0_INR; lia].
Qed.

Lemma incr_from_0 (f f' : R -> R) : f 0 = 0 -> (forall u, derivable_pt_lim f u (f' u)) -> (forall u, 0 <= u -> 0 <= f' u) -> forall u, 0 <= u -> 0 <= f u.
Proof.
  intros F0 D P u Hu. destruct Hu as [Hu|<-]; [|lra].
  destruct (MVT_cor2 f f' 0 u Hu) as (c & E & Hc); [intros; apply D|]. rewrite F0 in E. pose proof (P c ltac:(lra)). nra.
Qed.
Lemma deriv_exp_neg u : derivable_pt_lim (fun v => exp (- v)) u (- exp (- u)).
Proof.
  replace (- exp (- u)) with (exp (- u) * - 1) by ring. apply (derivable_pt_lim_comp (fun v => - v) exp); [|apply derivable_pt_lim_exp].
  apply (derivable_pt_lim_opp id u 1), derivable_pt_lim_id.
Qed.
Lemma deriv_texp_neg n u : derivable_pt_lim (fun v => texp (S n) (- v)) u (- texp n (- u)).
Proof.
  replace (- texp n (- u)) with (texp n (- u) * - 1) by ring. apply (derivable_pt_lim_comp (fun v => - v) (texp (S n))); [|apply texp_deriv].
  apply (derivable_pt_lim_opp id u 1), derivable_pt_lim_id.
Qed.

(** Partial sums lie below [exp] for positive arguments and on alternating sides for negative ones. *)
Lemma texp_lower n : forall u, 0 <= u -> texp n u <= exp u.
Proof.
  induction n as [|n IH]; intros u Hu.
  - unfold texp. cbn. pose proof (exp_ineq1_le u). lra.
  - enough (0 <= exp u - texp (S n) u) by lra.
    apply (incr_from_0 (fun v => exp v - texp (S n) v) (fun v => exp v - texp n v)); auto.
    + rewrite exp_0, texp_0. lra.
    + intros v. apply (derivable_pt_lim_minus exp (texp (S n))); [apply derivable_pt_lim_exp|apply texp_deriv].
    + intros v Hv. specialize (IH v Hv). lra.
Qed.
Lemma texp_alt n : forall u, 0 <= u -> 0 <= (-1) ^ n * (texp n (- u) - exp (- u)).
Proof.
  induction n as [|n IH]; intros u Hu.
  - unfold texp. cbn. assert (exp (- u) <= exp 0) by (destruct Hu as [Hu|<-]; [left; apply exp_increasing; lra|right; f_equal; ring]).
    rewrite exp_0 in H. lra.
  - apply (incr_from_0 (fun v => (-1) ^ S n * (texp (S n) (- v) - exp (- v))) (fun v => (-1) ^ n * (texp n (- v) - exp (- v)))); auto.
    + rewrite Ropp_0, exp_0, texp_0. ring.
    + intros v. replace ((-1) ^ n * (texp n (- v) - exp (- v))) with ((-1) ^ S n * (- texp n (- v) - - exp (- v))) by (cbn [pow]; ring).
      apply (derivable_pt_lim_scal (fun w => texp (S n) (- w) - exp (- w))).
      apply (derivable_pt_lim_minus (fun w => texp (S n) (- w)) (fun w => exp (- w))); [apply deriv_texp_neg|apply deriv_exp_neg].
Qed.
Lemma texp_neg_upper m u : 0 <= u -> exp (- u) <= texp (2 * m) (- u).
Proof. intros Hu. pose proof (texp_alt (2 * m) u Hu) as H. rewrite pow_1_even in H. lra. Qed.
Lemma texp_neg_lower m u : 0 <= u -> texp (S (2 * m)) (- u) <= exp (- u).
Proof. intros Hu. pose proof (texp_alt (S (2 * m)) u Hu) as H. rewrite pow_1_odd in H. lra. Qed.

Lemma PI_lower : 31415 / 10000 < PI.
Proof. pose proof (PI_2_3_7_ineq 3) as [H _]. unfold tg_alt, PI_2_3_7_tg, Ratan_seq in H. cbn in H. lra. Qed.
Lemma PI_upper : PI < 31416 / 10000.
Proof. pose proof (PI_2_3_7_ineq 3) as [_ H]. unfold tg_alt, PI_2_3_7_tg, Ratan_seq in H. cbn in H. lra. Qed.
