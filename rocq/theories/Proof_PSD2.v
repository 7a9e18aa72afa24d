(** Conditionally negative definite forms, and Schoenberg's correspondence with positive semidefinite ones. *)
From Coq Require Import List Arith Lia Bool Reals Lra.
From Verif Require Import Base BaseLemmas Num Linalg LinalgR MatR Proof_KMeans Proof_PSD.
Import ListNotations.
Local Open Scope R_scope.

Definition cndf n (Q : nat -> nat -> R) : Prop := forall c, sumR n c = 0 -> qf n Q c <= 0.
Definition symf n (K : nat -> nat -> R) : Prop := forall i j, (i < n)%nat -> (j < n)%nat -> K i j = K j i.

Lemma qf_left n g c : qf n (fun i _ => g i) c = sumR n (fun i => c i * g i) * sumR n c.
Proof.
  unfold qf. rewrite <- sumR_scal_r. apply sumR_ext. intros i _. rewrite <- sumR_scal. apply sumR_ext. intros j _. ring.
Qed.
Lemma qf_right n g c : qf n (fun _ j => g j) c = sumR n (fun i => c i * g i) * sumR n c.
Proof.
  unfold qf. rewrite Rmult_comm, <- sumR_scal_r. apply sumR_ext. intros i _. rewrite <- sumR_scal. apply sumR_ext. intros j _. ring.
Qed.
Lemma qf_const n a c : qf n (fun _ _ => a) c = a * (sumR n c) ^ 2.
Proof.
  rewrite (qf_left n (fun _ => a)). rewrite (sumR_ext n _ (fun i => a * c i)) by (intros; ring). rewrite sumR_scal. ring.
Qed.
Lemma cndf_scal n Q a : 0 <= a -> cndf n Q -> cndf n (fun i j => a * Q i j).
Proof. intros Ha H c Hc. rewrite qf_scal. specialize (H c Hc). nra. Qed.

Lemma cndf_psdf n Q : (0 < n)%nat -> symf n Q -> cndf n Q -> psdf n (fun i j => Q i 0%nat + Q 0%nat j - Q i j - Q 0%nat 0%nat).
Proof.
  intros Hn Sy H c. set (s := sumR n c).
  pose (c' := fun i => c i - (if (i =? 0)%nat then s else 0)).
  assert (Hc : sumR n c' = 0).
  { unfold c'. rewrite sumR_minus. rewrite (sumR_single n (fun i => if (i =? 0)%nat then s else 0) 0 Hn).
    - cbn. unfold s. ring. - intros k _ Hk. apply Nat.eqb_neq in Hk. now rewrite Hk. }
  specialize (H c' Hc).
  assert (E : qf n Q c' = qf n Q c - 2 * s * sumR n (fun i => c i * Q i 0%nat) + s * s * Q 0%nat 0%nat).
  { unfold c', qf.
    rewrite (sumR_ext n _ (fun i => sumR n (fun j => c i * c j * Q i j) - s * (c i * Q i 0%nat)
       - (if (i =? 0)%nat then s * (sumR n (fun j => c j * Q j 0%nat) - s * Q 0%nat 0%nat) else 0))).
    - rewrite !sumR_minus, sumR_scal. rewrite (sumR_single n (fun i => if (i =? 0)%nat then _ else 0) 0 Hn).
      + cbn [Nat.eqb]. ring. + intros k _ Hk. apply Nat.eqb_neq in Hk. now rewrite Hk.
    - intros i Hi.
      rewrite (sumR_ext n _ (fun j => c i * c j * Q i j - (if (j =? 0)%nat then s * (c i * Q i 0%nat) else 0)
         - (if (i =? 0)%nat then s * (c j * Q j 0%nat) - (if (j =? 0)%nat then s * s * Q 0%nat 0%nat else 0) else 0))).
      + rewrite !sumR_minus. rewrite (sumR_single n (fun j => if (j =? 0)%nat then _ else 0) 0 Hn).
        2:{ intros k _ Hk. apply Nat.eqb_neq in Hk. now rewrite Hk. } cbn [Nat.eqb].
        destruct (i =? 0)%nat.
        * rewrite sumR_minus, sumR_scal. rewrite (sumR_single n (fun j => if (j =? 0)%nat then _ else 0) 0 Hn).
          2:{ intros k _ Hk. apply Nat.eqb_neq in Hk. now rewrite Hk. } cbn [Nat.eqb]. ring.
        * rewrite (sumR_zero n (fun _ => 0)) by auto. ring.
      + intros j Hj. destruct (Nat.eqb_spec i 0) as [->|]; destruct (Nat.eqb_spec j 0) as [->|]; try rewrite (Sy 0%nat j) by auto; ring. }
  rewrite (qf_ext n _ (fun i j => (Q i 0%nat + Q 0%nat j) + ((-1) * Q i j + (-1) * Q 0%nat 0%nat)) c c); auto. 2:{ intros; ring. }
  rewrite (qf_plus n (fun i j => Q i 0%nat + Q 0%nat j)), (qf_plus n (fun i _ => Q i 0%nat)), (qf_plus n (fun i j => -1 * Q i j) (fun _ _ => -1 * Q 0%nat 0%nat)).
  rewrite qf_left, qf_right, qf_scal, qf_const. fold s.
  rewrite (sumR_ext n (fun i => c i * Q 0%nat i) (fun i => c i * Q i 0%nat)) by (intros i Hi; rewrite (Sy 0%nat i); auto). nra.
Qed.
Lemma schoenberg n Q : symf n Q -> cndf n Q -> psdf n (fun i j => exp (- Q i j)).
Proof.
  intros Sy H. destruct n as [|n]. { intros c. unfold qf. cbn. lra. }
  set (h := Q 0%nat 0%nat / 2).
  apply (psdf_ext (S n) (fun i j => exp (h - Q i 0%nat) * exp (h - Q j 0%nat) * exp (Q i 0%nat + Q 0%nat j - Q i j - Q 0%nat 0%nat))).
  - intros i j Hi Hj. rewrite <- !exp_plus. f_equal. rewrite (Sy 0%nat j) by lia. unfold h. field.
  - apply (psdf_diag (S n) (fun i j => exp (Q i 0%nat + Q 0%nat j - Q i j - Q 0%nat 0%nat)) (fun i => exp (h - Q i 0%nat))).
    apply (psdf_exp (S n) (fun i j => Q i 0%nat + Q 0%nat j - Q i j - Q 0%nat 0%nat)).
    + intros i j Hi Hj. rewrite (Sy 0%nat j), (Sy i 0%nat), (Sy i j), (Sy j 0%nat) by lia. ring.
    + apply cndf_psdf; auto; lia.
Qed.

(** Differentiating forms. *)
Lemma dlim_sumR m (f : nat -> R -> R) (d : nat -> R) t : (forall k, (k < m)%nat -> derivable_pt_lim (f k) t (d k)) ->
  derivable_pt_lim (fun t => sumR m (fun k => f k t)) t (sumR m d).
Proof.
  induction m as [|m IH]; intros H; cbn [sumR]. { apply derivable_pt_lim_const. }
  apply (derivable_pt_lim_plus (fun t => sumR m (fun k => f k t)) (f m)); [apply IH; auto|apply H; lia].
Qed.
Lemma dlim_qf n (K : R -> nat -> nat -> R) (D : nat -> nat -> R) c t :
  (forall i j, (i < n)%nat -> (j < n)%nat -> derivable_pt_lim (fun t => K t i j) t (D i j)) ->
  derivable_pt_lim (fun t => qf n (K t) c) t (qf n D c).
Proof.
  intros H. unfold qf. apply (dlim_sumR n (fun i t => sumR n (fun j => c i * c j * K t i j))). intros i Hi.
  apply (dlim_sumR n (fun j t => c i * c j * K t i j)). intros j Hj. apply (derivable_pt_lim_scal (fun t => K t i j)). auto.
Qed.
Lemma mono0 (f d : R -> R) b : 0 < b -> (forall t, 0 <= t <= b -> derivable_pt_lim f t (d t)) -> (forall t, 0 < t < b -> 0 <= d t) -> f 0 <= f b.
Proof.
  intros Hb H P. destruct (MVT_cor2 f d 0 b Hb H) as (x & E & Hx). specialize (P x Hx). nra.
Qed.
Lemma mono0' (f d : R -> R) b : 0 < b -> (forall t, 0 <= t <= b -> derivable_pt_lim f t (d t)) -> (forall t, 0 < t < b -> d t <= 0) -> f b <= f 0.
Proof.
  intros Hb H P. destruct (MVT_cor2 f d 0 b Hb H) as (x & E & Hx). specialize (P x Hx). nra.
Qed.
Lemma dlim_lin a t : derivable_pt_lim (fun t => a * t) t a.
Proof. pose proof (derivable_pt_lim_scal id a t 1 (derivable_pt_lim_id t)) as H. rewrite Rmult_1_r in H. exact H. Qed.
Lemma dlim_exp_lin a t : derivable_pt_lim (fun t => exp (a * t)) t (a * exp (a * t)).
Proof. rewrite Rmult_comm. apply (derivable_pt_lim_comp (fun t => a * t) exp). apply dlim_lin. apply derivable_pt_lim_exp. Qed.

Lemma exp_neg_cv a : 1 <= a -> Un_cv (fun N => exp (- a * INR N)) 0.
Proof.
  intros Ha e He. destruct (archimed_cor1 e He) as (M & HM & HM0). exists M. intros N HN. unfold R_dist. rewrite Rminus_0_r.
  rewrite Rabs_pos_eq by (left; apply exp_pos). apply Rlt_trans with (/ INR M); auto.
  assert (0 < INR M) by (now apply lt_0_INR). assert (INR M <= INR N) by (now apply le_INR).
  replace (- a * INR N) with (- (a * INR N)) by ring. rewrite exp_Ropp. apply Rinv_lt_contravar.
  - apply Rmult_lt_0_compat; auto. apply exp_pos.
  - pose proof (exp_ineq1 (a * INR N)). assert (0 < a * INR N) by nra. specialize (H1 ltac:(lra)). nra.
Qed.
Lemma psdf_inv n Q : symf n Q -> cndf n Q -> (forall i j, (i < n)%nat -> (j < n)%nat -> 0 <= Q i j) -> psdf n (fun i j => / (1 + Q i j)).
Proof.
  intros Sy H Pq.
  apply (psdf_lim n (fun N i j => (1 - exp (- (1 + Q i j) * INR N)) * / (1 + Q i j))).
  - intros N c. destruct N as [|N]. { cbn [INR]. rewrite (qf_ext n _ (fun _ _ => 0) c c); auto. { rewrite qf_const. lra. }
      intros. rewrite Rmult_0_r, exp_0. ring. }
    set (T := INR (S N)). assert (0 < T) by (apply lt_0_INR; lia).
    pose proof (mono0 (fun t => qf n (fun i j => (1 - exp (- (1 + Q i j) * t)) * / (1 + Q i j)) c)
      (fun t => qf n (fun i j => exp (- t) * exp (- (t * Q i j))) c) T H0) as M.
    cbv beta in M. rewrite (qf_ext n (fun i j => (1 - exp (- (1 + Q i j) * 0)) * / (1 + Q i j)) (fun _ _ => 0) c c) in M; auto.
    2:{ intros. rewrite Rmult_0_r, exp_0. ring. }
    rewrite qf_const in M. replace (0 * sumR n c ^ 2) with 0 in M by ring. apply M; clear M.
    + intros t Ht. apply (dlim_qf n (fun t i j => (1 - exp (- (1 + Q i j) * t)) * / (1 + Q i j))). intros i j Hi Hj.
      specialize (Pq i j Hi Hj).
      replace (exp (- t) * exp (- (t * Q i j))) with ((0 - (- (1 + Q i j)) * exp (- (1 + Q i j) * t)) * / (1 + Q i j) + (1 - exp (- (1 + Q i j) * t)) * 0).
      2:{ rewrite <- exp_plus. replace (- t + - (t * Q i j)) with (- (1 + Q i j) * t) by ring. field. lra. }
      apply (derivable_pt_lim_mult (fun t => 1 - exp (- (1 + Q i j) * t)) (fun _ => / (1 + Q i j))); [|apply derivable_pt_lim_const].
      apply (derivable_pt_lim_minus (fct_cte 1) (fun t => exp (- (1 + Q i j) * t))); [apply derivable_pt_lim_const|apply dlim_exp_lin].
    + intros t Ht. rewrite qf_scal. apply Rmult_le_pos; [left; apply exp_pos|].
      apply (schoenberg n (fun i j => t * Q i j)). { intros i j Hi Hj. now rewrite (Sy i j). } apply cndf_scal; auto; lra.
  - intros i j Hi Hj. specialize (Pq i j Hi Hj).
    replace (/ (1 + Q i j)) with ((1 - 0) * / (1 + Q i j)) at 1 by ring.
    apply (CV_mult (fun N => 1 - exp (- (1 + Q i j) * INR N)) (fun _ => / (1 + Q i j))).
    + apply (CV_minus (fun _ => 1) (fun N => exp (- (1 + Q i j) * INR N))).
      * intros e He. exists 0%nat. intros. unfold R_dist. rewrite Rminus_diag_eq, Rabs_R0; auto.
      * apply exp_neg_cv. lra.
    + intros e He. exists 0%nat. intros. unfold R_dist. rewrite Rminus_diag_eq, Rabs_R0; auto.
Qed.
Lemma cndf_ln n Q : symf n Q -> cndf n Q -> (forall i j, (i < n)%nat -> (j < n)%nat -> 0 <= Q i j) -> cndf n (fun i j => ln (1 + Q i j)).
Proof.
  intros Sy H Pq c Hc.
  pose proof (mono0' (fun t => qf n (fun i j => ln (1 + Q i j * t)) c) (fun t => qf n (fun i j => Q i j * / (1 + Q i j * t)) c) 1 ltac:(lra)) as M.
  cbv beta in M. rewrite (qf_ext n (fun i j => ln (1 + Q i j * 0)) (fun _ _ => 0) c c) in M; auto.
  2:{ intros. rewrite Rmult_0_r, Rplus_0_r. apply ln_1. }
  rewrite qf_const in M. rewrite (qf_ext n (fun i j => ln (1 + Q i j * 1)) (fun i j => ln (1 + Q i j)) c c) in M; auto.
  2:{ intros. now rewrite Rmult_1_r. }
  replace (0 * sumR n c ^ 2) with 0 in M by ring. apply M; clear M.
  - intros t Ht. apply (dlim_qf n (fun t i j => ln (1 + Q i j * t))). intros i j Hi Hj. specialize (Pq i j Hi Hj).
    replace (Q i j * / (1 + Q i j * t)) with (/ (1 + Q i j * t) * (0 + Q i j)) by (field; nra).
    apply (derivable_pt_lim_comp (fun t => 1 + Q i j * t) ln).
    + apply (derivable_pt_lim_plus (fct_cte 1) (fun t => Q i j * t)); [apply derivable_pt_lim_const|apply dlim_lin].
    + apply derivable_pt_lim_ln. nra.
  - intros t Ht.
    assert (P : psdf n (fun i j => / (1 + t * Q i j))).
    { apply (psdf_inv n (fun i j => t * Q i j)). { intros i j Hi Hj. now rewrite (Sy i j). } { apply cndf_scal; auto; lra. }
      intros i j Hi Hj. specialize (Pq i j Hi Hj). nra. }
    rewrite (qf_ext n _ (fun i j => / t * (1 + (-1) * / (1 + t * Q i j))) c c); auto.
    + rewrite qf_scal, (qf_plus n (fun _ _ => 1)), qf_const, Hc, qf_scal. specialize (P c). assert (0 < / t) by (apply Rinv_0_lt_compat; lra). nra.
    + intros i j Hi Hj. specialize (Pq i j Hi Hj). field. split; nra.
Qed.
Lemma cndf_lim n (Q : nat -> nat -> nat -> R) L : (forall N, cndf n (Q N)) -> (forall i j, (i < n)%nat -> (j < n)%nat -> Un_cv (fun N => Q N i j) (L i j)) -> cndf n L.
Proof.
  intros P H c Hc. assert (C : Un_cv (fun N => qf n (Q N) c) (qf n L c)).
  { unfold qf. apply (cv_sumR n (fun N i => sumR n (fun j => c i * c j * Q N i j))). intros i Hi.
    apply (cv_sumR n (fun N j => c i * c j * Q N i j)). intros j Hj.
    apply (CV_mult (fun _ => c i * c j) (fun N => Q N i j)); auto.
    intros e He. exists 0%nat. intros. unfold R_dist. rewrite Rminus_diag_eq, Rabs_R0; auto. }
  apply (@Rle_cv_lim (fun N => qf n (Q N) c) (fun _ => 0)); [intros N; apply P; auto|exact C|].
  intros e He. exists 0%nat. intros. unfold R_dist. rewrite Rminus_diag_eq, Rabs_R0; auto.
Qed.
Lemma atan_cv a : 0 < a -> Un_cv (fun N => a * atan (INR N / a)) (a * (PI / 2)).
Proof.
  intros Ha. apply (CV_mult (fun _ => a) (fun N => atan (INR N / a))).
  { intros e He. exists 0%nat. intros. unfold R_dist. rewrite Rminus_diag_eq, Rabs_R0; auto. }
  assert (C : Un_cv (fun N => atan (a * / INR (S N))) (atan 0)).
  { apply (continuity_seq atan (fun N => a * / INR (S N))). { apply derivable_continuous_pt. exists (/ (1 + 0 ^ 2)). apply derivable_pt_lim_atan. }
    intros e He. destruct (archimed_cor1 (e / a)) as (M & HM & HM0). { apply Rdiv_lt_0_compat; auto. }
    exists M. intros N HN. unfold R_dist. rewrite Rminus_0_r. assert (0 < INR M) by (now apply lt_0_INR). assert (INR M <= INR (S N)) by (apply le_INR; lia).
    rewrite Rabs_pos_eq. 2:{ left. apply Rmult_lt_0_compat; auto. apply Rinv_0_lt_compat. lra. }
    apply Rle_lt_trans with (a * / INR M). { apply Rmult_le_compat_l; [lra|]. apply Rinv_le_contravar; lra. }
    apply Rmult_lt_reg_l with (/ a). { now apply Rinv_0_lt_compat. } replace (/ a * (a * / INR M)) with (/ INR M) by (field; lra). unfold Rdiv in HM. lra. }
  rewrite atan_0 in C.
  intros e He. destruct (C e He) as [M HM]. exists (S M). intros N HN. destruct N as [|N]; [lia|].
  specialize (HM N ltac:(lia)). unfold R_dist in *. rewrite Rminus_0_r in HM.
  assert (Hp : 0 < INR (S N)) by (apply lt_0_INR; lia).
  replace (a * / INR (S N)) with (/ (INR (S N) / a)) in HM by (field; split; lra).
  rewrite atan_inv in HM by (apply Rdiv_lt_0_compat; auto). rewrite Rabs_minus_sym. exact HM.
Qed.
Lemma cndf_sqrt n Q : symf n Q -> cndf n Q -> (forall i j, (i < n)%nat -> (j < n)%nat -> 0 <= Q i j) -> cndf n (fun i j => sqrt (Q i j)).
Proof.
  intros Sy H Pq.
  assert (L : cndf n (fun i j => PI / 2 * sqrt (Q i j))).
  { apply (cndf_lim n (fun N i j => sqrt (Q i j) * atan (INR N / sqrt (Q i j)))).
    - intros N c Hc. destruct N as [|N]. { cbn [INR]. rewrite (qf_ext n _ (fun _ _ => 0) c c); auto. { rewrite qf_const. lra. }
        intros. unfold Rdiv. rewrite Rmult_0_l, atan_0. ring. }
      set (T := INR (S N)). assert (HT : 0 < T) by (apply lt_0_INR; lia).
      pose proof (mono0' (fun t => qf n (fun i j => sqrt (Q i j) * atan (t / sqrt (Q i j))) c)
        (fun t => qf n (fun i j => if Req_EM_T (Q i j) 0 then 0 else Q i j / (Q i j + t ^ 2)) c) T HT) as M.
      cbv beta in M. rewrite (qf_ext n (fun i j => sqrt (Q i j) * atan (0 / sqrt (Q i j))) (fun _ _ => 0) c c) in M; auto.
      2:{ intros. unfold Rdiv. rewrite Rmult_0_l, atan_0. ring. }
      rewrite qf_const in M. replace (0 * sumR n c ^ 2) with 0 in M by ring. apply M; clear M.
      + intros t Ht. apply (dlim_qf n (fun t i j => sqrt (Q i j) * atan (t / sqrt (Q i j)))). intros i j Hi Hj. specialize (Pq i j Hi Hj).
        destruct (Req_EM_T (Q i j) 0) as [E|E].
        * rewrite E, sqrt_0. replace 0 with (0 * 0) at 3 by ring.
          intros e He. exists (mkposreal 1 Rlt_0_1). intros h Hh _. rewrite !Rmult_0_l. replace ((0 - 0) / h - 0) with 0 by (field; auto). now rewrite Rabs_R0.
        * set (s := sqrt (Q i j)). assert (Hs : 0 < s) by (apply sqrt_lt_R0; lra). assert (Es : s * s = Q i j) by (apply sqrt_sqrt; auto).
          replace (Q i j / (Q i j + t ^ 2)) with (s * (/ (1 + (t / s) ^ 2) * / s)).
          2:{ rewrite <- Es. field. repeat split; try lra; apply Rgt_not_eq; nra. }
          apply (derivable_pt_lim_scal (fun t => atan (t / s))). apply (derivable_pt_lim_comp (fun t => t / s) atan).
          { intros e He. destruct (dlim_lin (/ s) t e He) as [d Hd]. exists d. intros h H1 H2. specialize (Hd h H1 H2). unfold Rdiv at 2 3. rewrite (Rmult_comm (t + h)), (Rmult_comm t). exact Hd. }
          apply derivable_pt_lim_atan.
      + intros t Ht.
        assert (P : psdf n (fun i j => / (1 + / t ^ 2 * Q i j))).
        { assert (0 < / t ^ 2) by (apply Rinv_0_lt_compat; nra).
          apply (psdf_inv n (fun i j => / t ^ 2 * Q i j)). { intros i j Hi Hj. now rewrite (Sy i j). } { apply cndf_scal; auto; lra. }
          intros i j Hi Hj. specialize (Pq i j Hi Hj). nra. }
        rewrite (qf_ext n _ (fun i j => 1 + (-1) * / (1 + / t ^ 2 * Q i j)) c c); auto.
        * rewrite (qf_plus n (fun _ _ => 1)), qf_const, Hc, qf_scal. specialize (P c). nra.
        * intros i j Hi Hj. specialize (Pq i j Hi Hj). assert (0 < t ^ 2) by nra. destruct (Req_EM_T (Q i j) 0) as [->|E]; [field; lra|].
          field. split; [nra|lra].
    - intros i j Hi Hj. specialize (Pq i j Hi Hj). destruct Pq as [Pp|E].
      + rewrite Rmult_comm. apply atan_cv. now apply sqrt_lt_R0.
      + rewrite <- E, sqrt_0. intros e He. exists 0%nat. intros. unfold R_dist. rewrite Rmult_0_l, Rmult_0_r, Rminus_0_r, Rabs_R0. auto. }
  intros c Hc. specialize (L c Hc). rewrite qf_scal in L. pose proof PI_RGT_0. nra.
Qed.
