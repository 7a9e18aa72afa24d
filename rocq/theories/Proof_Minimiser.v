(** A smooth convex function that is strongly convex on one of its sublevel sets has exactly one minimiser. *)
From Coq Require Import List Arith Lia Bool Reals Lra.
From Verif Require Import Base BaseLemmas Num NumFn Linalg LinalgR Euclid MatR Proof_KMeans Spec_Optim Proof_Optim Proof_Optim2 Spec_GDRate Proof_GDRate.
Import ListNotations.
Local Open Scope R_scope.

Lemma dot_diff n (g p q : list R) : length g = n -> length p = n -> length q = n -> dot g (vsub q p) = sumR n (fun k => nth k g 0 * (nth k q 0 - nth k p 0)).
Proof.
  intros Lg Lp Lq. rewrite (dot_sumR n) by (auto; rewrite vsub_len'; lia). apply sumR_ext. intros k Hk.
  unfold vsub. rewrite (map2_nth nsub _ _ k 0 0 0) by lia. reflexivity.
Qed.
Definition middle (p q : list R) : list R := map2 (fun a b => (a + b) / 2) p q.
Lemma middle_nth n (p q : list R) k : length p = n -> length q = n -> (k < n)%nat -> nth k (middle p q) 0 = (nth k p 0 + nth k q 0) / 2.
Proof. intros Lp Lq Hk. unfold middle. rewrite (map2_nth _ _ _ k 0 0 0) by lia. reflexivity. Qed.
Lemma middle_length n (p q : list R) : length p = n -> length q = n -> length (middle p q) = n.
Proof. intros Lp Lq. unfold middle. rewrite map2_length. lia. Qed.

Section Minimiser.
  Variables (n : nat) (f : list R -> R) (G : list R -> list R) (L mu : R) (x0 : list R).
  Hypothesis Hs : smooth n f G L.
  Hypothesis Hc : convex n f G.
  Hypothesis Hp : forall x, length x = n -> 0 <= f x.
  Hypothesis L0 : 0 <= L.
  Hypothesis M0 : 0 < mu.
  Hypothesis Lx0 : length x0 = n.
  Let inS p := length p = n /\ f p <= f x0.
  Hypothesis Hm : forall p q, inS p -> inS q -> f p + sumR n (fun k => nth k (G p) 0 * (nth k q 0 - nth k p 0)) + mu / 2 * dist2 q p <= f q.

  Lemma G_len p : length p = n -> length (G p) = n.
  Proof. intros Lp. apply (Hs p Lp). Qed.
  Lemma middle_S p q : inS p -> inS q -> inS (middle p q).
  Proof.
    intros (Lp & Sp) (Lq & Sq). pose proof (middle_length n p q Lp Lq) as Lm. split; [exact Lm|].
    pose proof (Hc _ p Lm Lp) as C1. pose proof (Hc _ q Lm Lq) as C2.
    rewrite (dot_diff n) in C1, C2 by (auto using G_len).
    assert (E : sumR n (fun k => nth k (G (middle p q)) 0 * (nth k p 0 - nth k (middle p q) 0)) + sumR n (fun k => nth k (G (middle p q)) 0 * (nth k q 0 - nth k (middle p q) 0)) = 0).
    { rewrite <- sumR_plus. apply sumR_zero. intros k Hk. rewrite (middle_nth n p q) by auto. field. }
    lra.
  Qed.
  Lemma middle_gain p q : inS p -> inS q -> mu / 4 * dist2 p q <= f p + f q - 2 * f (middle p q).
  Proof.
    intros Sp Sq. pose proof (middle_S p q Sp Sq) as Sm. pose proof (Hm _ _ Sm Sp) as C1. pose proof (Hm _ _ Sm Sq) as C2.
    destruct Sp as (Lp & Sp). destruct Sq as (Lq & Sq). destruct Sm as (Lm & Sm).
    assert (E : sumR n (fun k => nth k (G (middle p q)) 0 * (nth k p 0 - nth k (middle p q) 0)) + sumR n (fun k => nth k (G (middle p q)) 0 * (nth k q 0 - nth k (middle p q) 0)) = 0).
    { rewrite <- sumR_plus. apply sumR_zero. intros k Hk. rewrite (middle_nth n p q) by auto. field. }
    assert (E1 : dist2 p (middle p q) = / 4 * dist2 p q).
    { unfold dist2. rewrite Lp, <- sumR_scal. apply sumR_ext. intros k Hk. rewrite (middle_nth n p q) by auto. field. }
    assert (E2 : dist2 q (middle p q) = / 4 * dist2 p q).
    { unfold dist2. rewrite Lp, Lq, <- sumR_scal. apply sumR_ext. intros k Hk. rewrite (middle_nth n p q) by auto. field. }
    rewrite E1 in C1. rewrite E2 in C2. lra.
  Qed.
  Lemma pl p q : inS p -> inS q -> 2 * mu * (f p - f q) <= len2 (G p).
  Proof.
    intros Sp Sq. pose proof (Hm _ _ Sp Sq) as C. destruct Sp as (Lp & Sp). destruct Sq as (Lq & Sq).
    unfold len2. rewrite (G_len p Lp). unfold dist2 in C. rewrite Lq in C.
    assert (K : - (sumR n (fun k => nth k (G p) 0 ^ 2) / (2 * mu)) <= sumR n (fun k => nth k (G p) 0 * (nth k q 0 - nth k p 0)) + mu / 2 * sumR n (fun k => (nth k q 0 - nth k p 0) ^ 2)).
    { rewrite <- sumR_scal, <- sumR_plus. unfold Rdiv. rewrite Ropp_mult_distr_r, <- sumR_scal_r. apply sumR_le. intros k _.
      set (g := nth k (G p) 0). set (d := nth k q 0 - nth k p 0).
      assert (Z : 0 <= (g + mu * d) ^ 2) by apply pow2_ge_0.
      apply Rmult_le_reg_r with (2 * mu); [lra|]. replace (g ^ 2 * - / (2 * mu) * (2 * mu)) with (- g ^ 2) by (field; lra). nra. }
    apply Rmult_le_reg_r with (/ (2 * mu)); [apply Rinv_0_lt_compat; lra|].
    replace (2 * mu * (f p - f q) * / (2 * mu)) with (f p - f q) by (field; lra). unfold Rdiv in K. lra.
  Qed.

  Let alpha := / (L + 2 * mu).
  Let x t := descend alpha G x0 t.
  Let rho := 1 - alpha * mu.
  Lemma alpha_pos : 0 < alpha. Proof. unfold alpha. apply Rinv_0_lt_compat. lra. Qed.
  Lemma alpha_L : alpha * L <= 1.
  Proof. unfold alpha. apply Rmult_le_reg_l with (L + 2 * mu); [lra|]. rewrite <- Rmult_assoc, Rinv_r by lra. lra. Qed.
  Lemma rho_range : 0 < rho < 1.
  Proof.
    unfold rho. pose proof alpha_pos as A. assert (alpha * mu < 1); [|nra].
    unfold alpha. apply Rmult_lt_reg_l with (L + 2 * mu); [lra|]. rewrite <- Rmult_assoc, Rinv_r by lra. lra.
  Qed.
  Lemma x_S t : inS (x t).
  Proof.
    assert (LX : forall t, length (x t) = n) by (intros; apply (descend_length n f G L alpha Hs alpha_pos alpha_L); auto).
    split; [apply LX|]. induction t as [|t IH]; [cbn; lra|]. unfold x.
    pose proof (descend_drop n f G L alpha Hs alpha_pos alpha_L t x0 Lx0) as D. pose proof (len2_ge0 (G (descend alpha G x0 t))) as P.
    pose proof alpha_pos. unfold x in IH. nra.
  Qed.
  Lemma x_mono s t : (t <= s)%nat -> f (x s) <= f (x t).
  Proof.
    intros H. induction H as [|s H IH]; [lra|]. pose proof (descend_drop n f G L alpha Hs alpha_pos alpha_L s x0 Lx0) as D.
    pose proof (len2_ge0 (G (descend alpha G x0 s))) as P. pose proof alpha_pos. unfold x in *. nra.
  Qed.
  Lemma x_rate t q : inS q -> f (x t) - f q <= rho ^ t * (f x0 - f q).
  Proof.
    intros Sq. induction t as [|t IH]; [cbn; unfold x; cbn; lra|].
    pose proof (descend_drop n f G L alpha Hs alpha_pos alpha_L t x0 Lx0) as D. pose proof (pl _ q (x_S t) Sq) as P.
    pose proof alpha_pos. fold (x t) in D. fold (x (S t)) in D. cbn [pow].
    assert (f (x (S t)) - f q <= rho * (f (x t) - f q)) by (unfold rho; nra). pose proof rho_range. nra.
  Qed.
  Lemma x_close s t : (t <= s)%nat -> mu / 4 * dist2 (x s) (x t) <= 2 * (rho ^ t * f x0).
  Proof.
    intros H. pose proof (middle_gain _ _ (x_S s) (x_S t)) as M. pose proof (x_rate t _ (middle_S _ _ (x_S s) (x_S t))) as Rt.
    pose proof (x_mono s t H). assert (0 <= f (middle (x s) (x t))) by (apply Hp, middle_S; apply x_S).
    assert (0 < rho ^ t) by (apply pow_lt, rho_range). nra.
  Qed.
  Lemma rho_small e : 0 < e -> exists T, forall t, (T <= t)%nat -> rho ^ t * f x0 < e.
  Proof.
    intros He. pose proof rho_range as R. pose proof (Hp x0 Lx0).
    destruct (pow_lt_1_zero rho ltac:(rewrite Rabs_pos_eq; lra) (e / (f x0 + 1))) as (T & HT); [apply Rdiv_lt_0_compat; lra|].
    exists T. intros t Ht. specialize (HT t Ht). rewrite Rabs_pos_eq in HT by (apply pow_le; lra).
    assert (0 < rho ^ t) by (apply pow_lt; lra).
    assert (K : rho ^ t * (f x0 + 1) < e). { apply Rmult_lt_reg_r with (/ (f x0 + 1)); [apply Rinv_0_lt_compat; lra|]. rewrite Rmult_assoc, Rinv_r, Rmult_1_r by lra. exact HT. }
    nra.
  Qed.
  Lemma coord_le (p q : list R) k : length p = n -> (k < n)%nat -> (nth k p 0 - nth k q 0) ^ 2 <= dist2 p q.
  Proof. intros Lp Hk. unfold dist2. rewrite Lp. apply (sumR_ge_term n (fun k => (nth k p 0 - nth k q 0) ^ 2)); auto. intros; apply pow2_ge_0. Qed.
  Lemma coord_cauchy k : (k < n)%nat -> Cauchy_crit (fun t => nth k (x t) 0).
  Proof.
    intros Hk e He. destruct (rho_small (mu / 8 * (e * e))) as (T & HT); [apply Rmult_lt_0_compat; [lra|nra]|]. exists T.
    assert (K : forall s t, (T <= t)%nat -> (t <= s)%nat -> Rabs (nth k (x s) 0 - nth k (x t) 0) < e).
    { intros s t H1 H2. pose proof (x_close s t H2) as C. pose proof (coord_le (x s) (x t) k (proj1 (x_S s)) Hk) as C'. specialize (HT t H1).
      set (d := nth k (x s) 0 - nth k (x t) 0) in *. assert (Q : d * d < e * e).
      { apply Rmult_lt_reg_l with (mu / 4); [lra|]. assert (mu / 4 * d ^ 2 <= mu / 4 * dist2 (x s) (x t)) by (apply Rmult_le_compat_l; lra). lra. }
      apply Rsqr_lt_abs_0 in Q. rewrite (Rabs_pos_eq e) in Q by lra. exact Q. }
    intros s t H1 H2. unfold R_dist. destruct (Nat.le_ge_cases t s) as [Q|Q]; [now apply K|]. rewrite Rabs_minus_sym. now apply K.
  Qed.
  Lemma limits m : (m <= n)%nat -> exists z, length z = m /\ forall k, (k < m)%nat -> Un_cv (fun t => nth k (x t) 0) (nth k z 0).
  Proof.
    induction m as [|m IH]; intros H.
    - exists []. split; [reflexivity|]. intros; lia.
    - destruct (IH ltac:(lia)) as (z & Lz & Cz). destruct (R_complete _ (coord_cauchy m ltac:(lia))) as (l & Hl).
      exists (z ++ [l]). split; [rewrite app_length; cbn; lia|]. intros k Hk. destruct (Nat.eq_dec k m) as [->|Q].
      + rewrite app_nth2 by lia. replace (m - length z)%nat with 0%nat by lia. exact Hl.
      + rewrite app_nth1 by lia. apply Cz. lia.
  Qed.
  Lemma sum_cv m (g : nat -> R) (z : nat -> R) : (forall k, (k < m)%nat -> Un_cv (fun t => nth k (x t) 0) (z k)) ->
    Un_cv (fun t => sumR m (fun k => g k * (nth k (x t) 0 - z k))) 0.
  Proof.
    intros H. induction m as [|m IH].
    - cbn [sumR]. intros e He. exists 0%nat. intros. unfold R_dist. rewrite Rminus_0_r, Rabs_R0. exact He.
    - cbn [sumR]. assert (E : 0 + g m * (z m - z m) = 0) by ring.
      enough (K : Un_cv (fun t => sumR m (fun k => g k * (nth k (x t) 0 - z k)) + g m * (nth m (x t) 0 - z m)) (0 + g m * (z m - z m))) by (rewrite E in K; exact K).
      apply (CV_plus (fun t => sumR m (fun k => g k * (nth k (x t) 0 - z k))) (fun t => g m * (nth m (x t) 0 - z m))).
      + apply IH. intros; apply H. lia.
      + apply (CV_mult (fun _ => g m) (fun t => nth m (x t) 0 - z m)).
        * intros e He. exists 0%nat. intros. unfold R_dist. rewrite Rminus_diag_eq, Rabs_R0 by reflexivity. exact He.
        * apply (CV_minus (fun t => nth m (x t) 0) (fun _ => z m)); [apply H; lia|].
          intros e He. exists 0%nat. intros. unfold R_dist. rewrite Rminus_diag_eq, Rabs_R0 by reflexivity. exact He.
  Qed.

  Theorem minimiser : exists z, length z = n /\ (forall q, length q = n -> f z <= f q) /\
    forall p, length p = n -> f p <= f x0 -> mu / 4 * dist2 p z <= f p - f z.
  Proof.
    destruct (limits n (Nat.le_refl n)) as (z & Lz & Cz).
    assert (B : forall q, inS q -> f z <= f q).
    { intros q Sq. apply Rnot_lt_le. intros Q. set (e := f z - f q). assert (E0 : 0 < e) by (unfold e; lra).
      destruct (rho_small (e / 2) ltac:(lra)) as (T & HT).
      destruct (sum_cv n (fun k => nth k (G z) 0) (fun k => nth k z 0) Cz (e / 2) ltac:(lra)) as (T' & HT').
      set (t := (T + T')%nat). specialize (HT t ltac:(unfold t; lia)). specialize (HT' t ltac:(unfold t; lia)).
      unfold R_dist in HT'. rewrite Rminus_0_r in HT'. apply Rabs_def2 in HT'.
      pose proof (Hc z (x t) Lz (proj1 (x_S t))) as C. rewrite (dot_diff n) in C by (auto using G_len; apply x_S).
      pose proof (x_rate t q Sq) as Rq. assert (0 < rho ^ t) by (apply pow_lt, rho_range). pose proof (Hp q (proj1 Sq)). unfold e in *. nra. }
    assert (Sx : inS x0) by (split; [exact Lx0|lra]).
    assert (A : forall q, length q = n -> f z <= f q).
    { intros q Lq. destruct (Rle_dec (f q) (f x0)) as [K|K]; [apply B; split; auto|]. pose proof (B x0 Sx). lra. }
    exists z. split; [exact Lz|]. split; [exact A|]. intros p Lp Sp.
    assert (Sz : inS z) by (split; [exact Lz|now apply A]). assert (Sp' : inS p) by (split; auto).
    pose proof (middle_gain p z Sp' Sz). pose proof (A (middle p z) (proj1 (middle_S p z Sp' Sz))). lra.
  Qed.
End Minimiser.
