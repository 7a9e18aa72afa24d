(** * Leverages and leave-one-out residuals *)
From Coq Require Import List Arith Lia Bool Reals Lra.
From Verif Require Import Base BaseLemmas Num Linalg LinalgR Spec_Calc CalcR Proof_KMeans Proof_KMeans3 Proof_KPP
  Model_Regression Spec_Regression Proof_Regression Spec_Succeeds Proof_Succeeds Spec_LSStats Proof_LSStats.
Import ListNotations.
Local Open Scope R_scope.

Lemma ind_nth n i j : (j < n)%nat -> cf (indicator n i) j = if (j =? i)%nat then 1 else 0.
Proof.
  intros H. unfold cf, indicator. rewrite (nth_map (fun j => if (j =? i)%nat then 1 else 0) _ _ _ 0%nat) by now rewrite seq_length.
  now rewrite seq_nth by lia.
Qed.
Lemma sum_ind n i f : (i < n)%nat -> sumR n (fun j => cf (indicator n i) j * f j) = f i.
Proof.
  intros H. rewrite (sumR_single n _ i H).
  - rewrite ind_nth by auto. rewrite Nat.eqb_refl. ring.
  - intros j Hj Nj. rewrite ind_nth by auto. destruct (Nat.eqb_spec j i); [contradiction|]. ring.
Qed.

Section Lev.
  Variable X : matrix R.
  Hypothesis W : mwf X.
  Let n := nrows X.
  Let D := S (mcols X).
  Variable solve : matrix R -> list R -> res (list R).
  Hypothesis Se : solver_exact solve.
  Hypothesis Sp : spans X.
  Variable P : nat -> list R.
  Hypothesis HP : forall i, (i < n)%nat -> learns solve X (indicator n i) (P i).

  Lemma ind_fit i : (i < n)%nat -> fit X (cf (indicator n i)) (cf (P i)).
  Proof. intros Hi. exact (proj2 (proj2 (learns_fit X W solve _ _ (proj1 Se) (HP i Hi)))). Qed.

  (** Every fit is the weighted sum of the fits of the indicators. *)
  Lemma fit_hat y f : fit X y f -> forall k, (k < D)%nat -> f k = sumR n (fun j => y j * cf (P j) k).
  Proof.
    intros H. apply (fit_unique X y f _ (spans_sep X W Sp) H).
    apply (fit_ext X (fun i => sumR n (fun s => y s * cf (indicator n s) i)) y (fun k => sumR n (fun s => y s * cf (P s) k)) _); auto.
    - intros i Hi. rewrite (sumR_single n _ i Hi).
      + rewrite ind_nth by exact Hi. rewrite Nat.eqb_refl. ring.
      + intros j Hj Nj. rewrite ind_nth by exact Hi. destruct (Nat.eqb_spec i j); [congruence|]. ring.
    - exact (fit_sum X n y _ _ ind_fit).
  Qed.
  Lemma aff_hat y f i : fit X y f -> aff X f i = sumR n (fun j => y j * aff X (cf (P j)) i).
  Proof. intros H. rewrite (aff_ext X f _ i (fit_hat y f H)). apply aff_sum. Qed.

  (** Rows with a one in front. *)
  Definition zz (i k : nat) : R := match k with O => 1 | S k' => nth k' (nth i (mrows X) []) 0 end.
  Lemma aff_zz f i : aff X f i = sumR D (fun k => f k * zz i k).
  Proof. unfold aff, D. rewrite sumR_first. cbn [zz]. now rewrite Rmult_1_r. Qed.
  Definition unit_at (k k' : nat) : R := if (k' =? k)%nat then 1 else 0.
  Lemma aff_unit k i : (k < D)%nat -> aff X (unit_at k) i = zz i k.
  Proof.
    intros Hk. rewrite aff_zz, (sumR_single D _ k Hk).
    - unfold unit_at. rewrite Nat.eqb_refl. ring.
    - intros j Hj Nj. unfold unit_at. destruct (Nat.eqb_spec j k); [contradiction|]. ring.
  Qed.

  Lemma trace : sumR n (fun i => aff X (cf (P i)) i) = INR D.
  Proof.
    rewrite (sumR_ext n _ (fun i => sumR D (fun k => cf (P i) k * zz i k))) by (intros; apply aff_zz).
    rewrite sumR_exch. rewrite (sumR_ext D _ (fun _ => 1)); [rewrite sumR_const; ring|]. intros k Hk.
    pose proof (fit_hat _ _ (fit_exact X (unit_at k)) k Hk) as E. unfold unit_at at 1 in E. rewrite Nat.eqb_refl in E.
    rewrite E. apply sumR_ext. intros i _. rewrite aff_unit by exact Hk. ring.
  Qed.

  Lemma lev_square i : (i < n)%nat -> aff X (cf (P i)) i = sumR n (fun j => aff X (cf (P i)) j ^ 2).
  Proof. intros Hi. etransitivity; [|exact (fit_self X _ _ (ind_fit i Hi))]. fold n. now rewrite sum_ind. Qed.

  Lemma leverage_range i : (i < n)%nat -> / INR n <= aff X (cf (P i)) i <= 1.
  Proof.
    intros Hi. pose proof (lev_square i Hi) as E. assert (Nn : 0 < INR n) by (apply lt_0_INR; lia). split.
    - pose proof (ind_fit i Hi (unit_at 0)) as S. fold n in S.
      rewrite (sumR_ext n _ (fun j => cf (indicator n i) j * 1 - aff X (cf (P i)) j)) in S
        by (intros j _; rewrite (aff_unit 0 j ltac:(unfold D; lia)); cbn [zz]; ring).
      rewrite sumR_minus, sum_ind in S by auto.
      assert (Q : 0 <= sumR n (fun j => (aff X (cf (P i)) j - / INR n) ^ 2)) by (apply sumR_ge0; intros; apply pow2_ge_0).
      rewrite (sumR_ext n _ (fun j => aff X (cf (P i)) j ^ 2 + (- (2 * / INR n) * aff X (cf (P i)) j + / INR n * / INR n))) in Q by (intros; ring).
      rewrite !sumR_plus, sumR_scal, sumR_const, <- E in Q.
      assert (S1 : sumR n (aff X (cf (P i))) = 1) by (cbn beta in S; apply Rminus_diag_uniq_sym; exact S). rewrite S1 in Q.
      replace (INR n * (/ INR n * / INR n)) with (/ INR n) in Q by (field; lra). lra.
    - pose proof (sumR_ge_term n (fun j => aff X (cf (P i)) j ^ 2) i (fun j _ => pow2_ge_0 _) Hi) as Q. cbn beta in Q.
      rewrite <- E in Q. nra.
  Qed.

  (** ** The residual variance *)
  Lemma residual_mean m pr e s2 w params : noise_law n m pr e s2 -> length w = D ->
    (forall s, (s < m)%nat -> learns solve X (observed X w (e s)) (params s)) ->
    sumR m (fun s => pr s * rss X (observed X w (e s)) (params s)) = s2 * (INR n - INR D).
  Proof.
    intros NL Lw Tr.
    transitivity (sumR m (fun s => pr s * sumR n (fun i => nth i (e s) 0 ^ 2) -
      sumR n (fun i => sumR n (fun j => aff X (cf (P j)) i * (pr s * (nth i (e s) 0 * nth j (e s) 0)))))).
    - apply sumR_ext. intros s Hs.
      pose proof (err_fit X W m pr e s2 NL solve Se w params Tr s Hs) as F.
      pose proof (fit_rss X _ _ F) as E. fold n in E. unfold rss. fold n.
      rewrite (sumR_ext n _ (fun i => (cf (e s) i - aff X (fun k => cf (params s) k - cf w k) i) ^ 2)).
      2:{ intros i Hi. rewrite (obs_nth X W m pr e s2 NL w s i Hs Hi). rewrite affine_aff by auto. rewrite aff_minus.
          change (cf (e s) i) with (nth i (e s) 0). ring. }
      rewrite E, Rmult_minus_distr_l. f_equal. rewrite <- sumR_scal. apply sumR_ext. intros i Hi.
      rewrite (aff_hat _ _ i F). rewrite <- !sumR_scal. apply sumR_ext. intros j Hj. unfold cf at 1 2. ring.
    - rewrite sumR_minus. rewrite Rmult_minus_distr_l. f_equal.
      + rewrite (sumR_ext m _ (fun s => sumR n (fun i => pr s * nth i (e s) 0 ^ 2))) by (intros; now rewrite sumR_scal).
        rewrite sumR_exch, (sumR_ext n _ (fun _ => s2)) by (intros i Hi; apply (nl_variance _ _ _ _ _ NL i Hi)).
        rewrite sumR_const. ring.
      + rewrite <- trace, <- sumR_scal. rewrite sumR_exch. apply sumR_ext. intros i Hi0. rewrite sumR_exch.
        rewrite (sumR_single n _ i Hi0).
        * rewrite sumR_scal, (sumR_ext m _ (fun s => pr s * nth i (e s) 0 ^ 2)) by (intros; ring). cbn beta.
          rewrite (nl_variance _ _ _ _ _ NL i Hi0). ring.
        * intros j Hj Nj. rewrite sumR_scal. rewrite (nl_uncorrelated _ _ _ _ _ NL i j Hi0 Hj (fun E => Nj (eq_sym E))). ring.
  Qed.

  (** ** Leaving a row out *)
  Variable i : nat.
  Hypothesis Hi : (i < n)%nat.
  Definition skip (j : nat) : nat := if (j <? i)%nat then j else S j.

  Lemma without_length {A} (l : list A) : (i < length l)%nat -> length (without i l) = (length l - 1)%nat.
  Proof. intros H. unfold without. rewrite app_length, firstn_length, skipn_length. lia. Qed.
  Lemma without_nth {A} (l : list A) j d : (i < length l)%nat -> nth j (without i l) d = nth (skip j) l d.
  Proof.
    intros H. unfold without, skip. destruct (Nat.ltb_spec j i) as [K|K].
    - rewrite app_nth1 by (rewrite firstn_length; lia). rewrite <- (firstn_skipn i l) at 2.
      rewrite app_nth1 by (rewrite firstn_length; lia). reflexivity.
    - rewrite app_nth2 by (rewrite firstn_length; lia). rewrite firstn_length, Nat.min_l by lia.
      rewrite <- (firstn_skipn (S i) l) at 2. rewrite app_nth2 by (rewrite firstn_length; lia).
      rewrite firstn_length, Nat.min_l by lia. reflexivity.
  Qed.
  Lemma sum_skip f N : (i < N)%nat -> sumR N f = f i + sumR (N - 1) (fun j => f (skip j)).
  Proof.
    induction N as [|N IH]; intros H; [lia|]. replace (S N - 1)%nat with N by lia.
    destruct (Nat.eq_dec i N) as [E|NE].
    - cbn [sumR]. rewrite (sumR_ext N (fun j => f (skip j)) f); [rewrite E; ring|]. intros j Hj. unfold skip.
      destruct (Nat.ltb_spec j i); [reflexivity|lia].
    - cbn [sumR]. rewrite IH by lia. destruct N as [|N]; [lia|]. replace (S N - 1)%nat with N by lia. cbn [sumR].
      assert (E : skip N = S N) by (unfold skip; destruct (Nat.ltb_spec N i); [lia|reflexivity]). rewrite E. ring.
  Qed.
  Lemma out_wf : mwf (leave_out i X).
  Proof.
    unfold mwf, leave_out in *. cbn [mrows mcols]. unfold without. apply Forall_app. split.
    - apply Forall_forall. intros r Hr. rewrite Forall_forall in W. apply W. rewrite <- (firstn_skipn i (mrows X)). apply in_or_app. now left.
    - apply Forall_forall. intros r Hr. rewrite Forall_forall in W. apply W. rewrite <- (firstn_skipn (S i) (mrows X)). apply in_or_app. now right.
  Qed.
  Lemma out_nrows : nrows (leave_out i X) = (n - 1)%nat.
  Proof. unfold nrows, leave_out. cbn [mrows]. now apply without_length. Qed.
  Lemma out_aff f j : aff (leave_out i X) f j = aff X f (skip j).
  Proof. unfold aff, leave_out. cbn [mrows mcols]. now rewrite without_nth. Qed.

  Lemma loo_fit y p' : length y = n -> learns solve (leave_out i X) (without i y) p' ->
    fit X (fun j => if (j =? i)%nat then aff X (cf p') i else nth j y 0) (cf p').
  Proof.
    intros Ly H. destruct (learns_fit _ out_wf solve _ _ (proj1 Se) H) as (_ & _ & F). intros g. fold n.
    rewrite (sum_skip _ n Hi), Nat.eqb_refl. refine (eq_trans _ (F g)). rewrite out_nrows.
    match goal with |- ?a + ?b = ?c => enough (b = c) by lra end.
    apply sumR_ext. intros j Hj. rewrite !out_aff. unfold cf at 3. rewrite without_nth by (rewrite Ly; exact Hi).
    assert (E : (skip j =? i)%nat = false) by (apply Nat.eqb_neq; unfold skip; destruct (Nat.ltb_spec j i); lia).
    rewrite E. reflexivity.
  Qed.

  Theorem loo_identity y p p' : learns solve X y p -> learns solve (leave_out i X) (without i y) p' ->
    (1 - aff X (cf (P i)) i) * (nth i y 0 - aff X (cf p') i) = nth i y 0 - aff X (cf p) i.
  Proof.
    intros H H'. destruct (learns_fit X W solve _ _ (proj1 Se) H) as (Ly & _ & F). fold n in Ly.
    pose proof (loo_fit y p' Ly H') as F'.
    pose proof (aff_hat _ _ i F) as A. pose proof (aff_hat _ _ i F') as B.
    rewrite (sum_skip _ n Hi) in A. rewrite (sum_skip _ n Hi), Nat.eqb_refl in B.
    set (s := sumR (n - 1) (fun j => cf y (skip j) * aff X (cf (P (skip j))) i)) in A.
    assert (Es : sumR (n - 1) (fun j => (if (skip j =? i)%nat then aff X (cf p') i else nth (skip j) y 0) * aff X (cf (P (skip j))) i) = s).
    { apply sumR_ext. intros j Hj.
      assert (E : (skip j =? i)%nat = false) by (apply Nat.eqb_neq; unfold skip; destruct (Nat.ltb_spec j i); lia).
      rewrite E. reflexivity. }
    rewrite Es in B. unfold cf at 2 in A. lra.
  Qed.

  Lemma unskip j : (j < n)%nat -> j <> i -> exists j', (j' < n - 1)%nat /\ skip j' = j.
  Proof.
    intros H1 H2. destruct (Nat.lt_ge_cases j i) as [K|K].
    - exists j. split; [lia|]. unfold skip. destruct (Nat.ltb_spec j i); lia.
    - exists (j - 1)%nat. split; [lia|]. unfold skip. destruct (Nat.ltb_spec (j - 1) i); lia.
  Qed.

  Theorem loo_trains y : length y = n ->
    ((exists p', learns solve (leave_out i X) (without i y) p') <-> aff X (cf (P i)) i < 1).
  Proof.
    intros Ly. rewrite (learns_iff _ out_wf solve Se). rewrite out_nrows.
    assert (L : length (without i y) = (n - 1)%nat) by (rewrite without_length; [now rewrite Ly|rewrite Ly; exact Hi]).
    destruct (leverage_range i Hi) as [Lo Up].
    split.
    - intros [_ S]. destruct (Rlt_le_dec (aff X (cf (P i)) i) 1) as [|K]; auto. exfalso.
      assert (E : aff X (cf (P i)) i = 1) by lra.
      pose proof (lev_square i Hi) as Q. rewrite (sum_skip _ n Hi), E in Q.
      assert (Z : sumR (n - 1) (fun j => aff X (cf (P i)) (skip j) ^ 2) = 0) by lra.
      pose proof (spans_sep _ out_wf S (cf (P i))) as V.
      assert (V0 : forall k, (k < D)%nat -> cf (P i) k = 0).
      { apply V. intros j Hj. rewrite out_nrows in Hj. rewrite out_aff.
        apply (sumR_zero_inv _ _ (fun j _ => pow2_ge_0 _)) with (i := j) in Z; auto. cbn beta in Z. nra. }
      rewrite aff_zz, sumR_zero in E; [lra|]. intros k Hk. rewrite V0 by exact Hk. ring.
    - intros K. split; [exact L|]. apply (sep_spans _ out_wf). intros g Hg. change (mcols (leave_out i X)) with (mcols X).
      apply (spans_sep X W Sp).
      assert (Z : forall j, (j < n)%nat -> j <> i -> aff X g j = 0).
      { intros j Hj Nj. destruct (unskip j Hj Nj) as (j' & Hj' & E). rewrite <- E, <- out_aff. apply Hg. now rewrite out_nrows. }
      assert (Zi : aff X g i = 0).
      { pose proof (aff_hat _ _ i (fit_exact X g)) as A. rewrite (sumR_single n _ i Hi) in A.
        - nra.
        - intros j Hj Nj. rewrite Z by auto. ring. }
      intros j Hj. destruct (Nat.eq_dec j i) as [->|Nj]; auto.
  Qed.
End Lev.
