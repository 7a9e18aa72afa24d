(** * Least squares as a statistical estimate *)
From Coq Require Import List Arith Lia Bool Reals Lra.
From Verif Require Import Base BaseLemmas Num Linalg LinalgR Spec_Calc CalcR Proof_KMeans Proof_KMeans3
  Model_Regression Spec_Regression Proof_Regression Spec_Succeeds Proof_Succeeds Spec_LSStats.
Import ListNotations.
Local Open Scope R_scope.

Definition vec (d : nat) (f : nat -> R) : list R := map f (seq 0 d).
Lemma vec_length d f : length (vec d f) = d. Proof. unfold vec. now rewrite map_length, seq_length. Qed.
Lemma vec_nth d f k : (k < d)%nat -> nth k (vec d f) 0 = f k.
Proof. intros H. unfold vec. rewrite (nth_map f _ _ _ 0%nat) by now rewrite seq_length. now rewrite seq_nth by lia. Qed.
Lemma list_ext_nth (p q : list R) d : length p = d -> length q = d -> (forall k, (k < d)%nat -> nth k p 0 = nth k q 0) -> p = q.
Proof. intros L1 L2 H. apply (nth_ext p q 0 0); [lia|]. intros k Hk. apply H. lia. Qed.
Lemma sumR_scal_r' n c f : sumR n (fun i => f i * c) = sumR n f * c.
Proof. rewrite <- (Rmult_comm c), <- sumR_scal. apply sumR_ext. intros; ring. Qed.

Section LS.
  Variable X : matrix R.
  Hypothesis W : mwf X.
  Let n := nrows X.
  Let D := S (mcols X).

  (** Value at row [i] of the affine function with coefficients [f]. *)
  Definition aff (f : nat -> R) (i : nat) : R :=
    f 0%nat + sumR (mcols X) (fun k => f (S k) * nth k (nth i (mrows X) []) 0).
  Definition cf (p : list R) (k : nat) : R := nth k p 0.

  Lemma row_len i : (i < n)%nat -> length (nth i (mrows X) []) = mcols X.
  Proof. intros H. unfold mwf in W. rewrite Forall_forall in W. apply W. now apply nth_In. Qed.
  Lemma affine_aff p i : (i < n)%nat -> affine p (nth i (mrows X) []) = aff (cf p) i.
  Proof. intros H. unfold affine, aff, cf. now rewrite row_len. Qed.
  Lemma aff_ext f g i : (forall k, (k < D)%nat -> f k = g k) -> aff f i = aff g i.
  Proof.
    intros H. unfold aff. rewrite H by (unfold D; lia). f_equal. apply sumR_ext. intros k Hk. rewrite H; auto. unfold D; lia.
  Qed.
  Lemma aff_vec f i : aff (cf (vec D f)) i = aff f i.
  Proof. apply aff_ext. intros k Hk. unfold cf. now apply vec_nth. Qed.
  Lemma aff_lin a b f g i : aff (fun k => a * f k + b * g k) i = a * aff f i + b * aff g i.
  Proof.
    unfold aff. rewrite (sumR_ext _ (fun k => (a * f (S k) + b * g (S k)) * nth k (nth i (mrows X) []) 0)
      (fun k => a * (f (S k) * nth k (nth i (mrows X) []) 0) + b * (g (S k) * nth k (nth i (mrows X) []) 0))) by (intros; ring).
    rewrite sumR_plus, !sumR_scal. ring.
  Qed.
  Lemma aff_minus f g i : aff (fun k => f k - g k) i = aff f i - aff g i.
  Proof.
    rewrite (aff_ext (fun k => f k - g k) (fun k => 1 * f k + (-1) * g k)) by (intros; ring). rewrite aff_lin. ring.
  Qed.
  Lemma aff_sum m a (f : nat -> nat -> R) i : aff (fun k => sumR m (fun s => a s * f s k)) i = sumR m (fun s => a s * aff (f s) i).
  Proof.
    unfold aff. rewrite (sumR_ext m (fun s => a s * (f s 0%nat + sumR (mcols X) (fun k => f s (S k) * nth k (nth i (mrows X) []) 0)))
      (fun s => a s * f s 0%nat + sumR (mcols X) (fun k => a s * f s (S k) * nth k (nth i (mrows X) []) 0))).
    2:{ intros s _. rewrite Rmult_plus_distr_l. f_equal. rewrite <- sumR_scal. apply sumR_ext. intros; ring. }
    rewrite sumR_plus. f_equal. rewrite sumR_exch. apply sumR_ext. intros k _. now rewrite sumR_scal_r'.
  Qed.

  (** The residuals of [f] on the targets [y] are orthogonal to all affine functions. *)
  Definition fit (y f : nat -> R) : Prop := forall g, sumR n (fun i => (y i - aff f i) * aff g i) = 0.
  (** Only the zero affine function vanishes on all rows. *)
  Definition sep : Prop := forall g, (forall i, (i < n)%nat -> aff g i = 0) -> forall k, (k < D)%nat -> g k = 0.

  Lemma spans_sep : spans X -> sep.
  Proof.
    intros S g Hg k Hk. assert (E : vec D g = repeat 0 D).
    { apply S; [apply vec_length|]. intros r Hr. destruct (In_nth _ _ [] Hr) as (i & Hi & <-).
      rewrite affine_aff by exact Hi. rewrite aff_vec. now apply Hg. }
    rewrite <- (vec_nth D g k Hk), E. apply nth_repeat.
  Qed.
  Lemma sep_spans : sep -> spans X.
  Proof.
    intros S q Lq Hq. apply (list_ext_nth _ _ D); [exact Lq|apply repeat_length|]. intros k Hk. rewrite nth_repeat.
    apply (S (cf q)); auto. intros i Hi. rewrite <- affine_aff by exact Hi. apply Hq. now apply nth_In.
  Qed.

  Lemma least_fit y p : length p = D -> (forall q, length q = D -> rss X y p <= rss X y q) -> fit (cf y) (cf p).
  Proof.
    intros Lp Hm g. set (a := sumR n (fun i => (cf y i - aff (cf p) i) * aff g i)).
    set (b := sumR n (fun i => aff g i ^ 2)).
    assert (Hb : 0 <= b) by (apply sumR_ge0; intros; apply pow2_ge_0).
    assert (K : forall t, 0 <= - 2 * t * a + t * t * b).
    { intros t. specialize (Hm (vec D (fun k => 1 * cf p k + t * g k)) (vec_length _ _)). unfold rss in Hm. fold n in Hm.
      assert (E : sumR n (fun i => (nth i y 0 - affine (vec D (fun k => 1 * cf p k + t * g k)) (nth i (mrows X) [])) ^ 2) =
        sumR n (fun i => (nth i y 0 - affine p (nth i (mrows X) [])) ^ 2) + (- 2 * t * a + t * t * b)).
      { unfold a, b. rewrite <- !sumR_scal, <- !sumR_plus. apply sumR_ext. intros i Hi. rewrite !affine_aff by exact Hi.
        rewrite aff_vec, aff_lin. unfold cf. ring. }
      rewrite E in Hm. lra. }
    destruct (Req_dec a 0) as [|Na]; auto. exfalso.
    destruct (Req_dec b 0) as [Eb|Nb].
    - specialize (K a). rewrite Eb in K. assert (0 < a * a) by (destruct (Rdichotomy _ _ Na); nra). lra.
    - specialize (K (a / b)). replace (- 2 * (a / b) * a + a / b * (a / b) * b) with (- (a * a) / b) in K by (field; auto).
      assert (0 < a * a) by (destruct (Rdichotomy _ _ Na); nra).
      assert (0 < a * a / b) by (apply Rdiv_lt_0_compat; lra). unfold Rdiv in *. rewrite Ropp_mult_distr_l_reverse in K. lra.
  Qed.

  Lemma fit_ext y y' f f' : (forall i, (i < n)%nat -> y i = y' i) -> (forall k, (k < D)%nat -> f k = f' k) -> fit y f -> fit y' f'.
  Proof.
    intros E1 E2 H g. rewrite <- (H g). apply sumR_ext. intros i Hi. rewrite (aff_ext f' f) by (intros; symmetry; auto).
    now rewrite E1.
  Qed.
  Lemma fit_unique y f f' : sep -> fit y f -> fit y f' -> forall k, (k < D)%nat -> f k = f' k.
  Proof.
    intros S H H' k Hk. enough (f k - f' k = 0) by lra.
    apply (S (fun k => f k - f' k)); auto. intros i Hi.
    pose proof (H (fun k => f k - f' k)) as A. pose proof (H' (fun k => f k - f' k)) as B.
    assert (Z : sumR n (fun i => aff (fun k => f k - f' k) i ^ 2) = 0).
    { transitivity (sumR n (fun i => (y i - aff f' i) * aff (fun k => f k - f' k) i) -
                    sumR n (fun i => (y i - aff f i) * aff (fun k => f k - f' k) i)); [|lra].
      rewrite <- sumR_minus. apply sumR_ext. intros j _. rewrite !aff_minus. ring. }
    apply (sumR_zero_inv n _ (fun i _ => pow2_ge_0 _)) with (i := i) in Z; auto. cbn beta in Z. nra.
  Qed.
  Lemma fit_sum m a (y f : nat -> nat -> R) : (forall s, (s < m)%nat -> fit (y s) (f s)) ->
    fit (fun i => sumR m (fun s => a s * y s i)) (fun k => sumR m (fun s => a s * f s k)).
  Proof.
    intros H g. transitivity (sumR m (fun s => a s * sumR n (fun i => (y s i - aff (f s) i) * aff g i))).
    - rewrite (sumR_ext m _ (fun s => sumR n (fun i => a s * ((y s i - aff (f s) i) * aff g i)))) by (intros; now rewrite sumR_scal).
      rewrite sumR_exch. apply sumR_ext. intros i _. rewrite aff_sum, <- sumR_minus, <- sumR_scal_r'. apply sumR_ext. intros; ring.
    - apply sumR_zero. intros s Hs. rewrite (H s Hs g). ring.
  Qed.
  Lemma fit_lin a b y y' f f' : fit y f -> fit y' f' -> fit (fun i => a * y i + b * y' i) (fun k => a * f k + b * f' k).
  Proof.
    intros H H' g. transitivity (a * sumR n (fun i => (y i - aff f i) * aff g i) + b * sumR n (fun i => (y' i - aff f' i) * aff g i)).
    - rewrite <- !sumR_scal, <- sumR_plus. apply sumR_ext. intros i _. rewrite aff_lin. ring.
    - rewrite H, H'. ring.
  Qed.
  Lemma fit_exact f : fit (aff f) f.
  Proof. intros g. apply sumR_zero. intros. ring. Qed.
  Lemma fit_sym y f y' f' : fit y f -> fit y' f' -> sumR n (fun i => y i * aff f' i) = sumR n (fun i => y' i * aff f i).
  Proof.
    intros H H'. pose proof (H f') as A. pose proof (H' f) as B.
    transitivity (sumR n (fun i => aff f i * aff f' i)).
    - apply Rminus_diag_uniq. rewrite <- sumR_minus. rewrite <- A. apply sumR_ext. intros; ring.
    - symmetry. apply Rminus_diag_uniq. rewrite <- sumR_minus. rewrite <- B. apply sumR_ext. intros; ring.
  Qed.
  Lemma fit_self y f : fit y f -> sumR n (fun i => y i * aff f i) = sumR n (fun i => aff f i ^ 2).
  Proof. intros H. apply Rminus_diag_uniq. rewrite <- sumR_minus. rewrite <- (H f). apply sumR_ext. intros; ring. Qed.
  Lemma fit_rss y f : fit y f -> sumR n (fun i => (y i - aff f i) ^ 2) = sumR n (fun i => y i ^ 2) - sumR n (fun i => y i * aff f i).
  Proof.
    intros H. pose proof (fit_self y f H) as E.
    transitivity (sumR n (fun i => y i ^ 2) - 2 * sumR n (fun i => y i * aff f i) + sumR n (fun i => aff f i ^ 2)); [|lra].
    rewrite <- sumR_scal, <- sumR_minus, <- sumR_plus. apply sumR_ext. intros; ring.
  Qed.

  (** The link with training. *)
  Section Solver.
    Variable solve : matrix R -> list R -> res (list R).
    Lemma learns_fit y p : solver_sound solve -> learns solve X y p ->
      length y = n /\ length p = D /\ fit (cf y) (cf p).
    Proof.
      intros Ss H. specialize (H lr_default). apply lr_train_ls in H; auto. destruct H as (Ly & p' & E & Lp & Hm).
      cbn in E. injection E as <-. repeat split; auto. apply least_fit; auto.
    Qed.
    Lemma learns_iff : solver_exact solve -> forall y, (exists p, learns solve X y p) <-> length y = n /\ spans X.
    Proof.
      intros Se y. unfold n. rewrite <- (lr_succeeds solve lr_default X y Se W). unfold learns, lr_train.
      destruct (let? b := rmat_vec _ _ in _) as [v|k|]; split.
      - reflexivity.
      - intros _. exists v. reflexivity.
      - intros (p & H). specialize (H lr_default). discriminate.
      - discriminate.
      - intros (p & H). specialize (H lr_default). discriminate.
      - discriminate.
    Qed.
  End Solver.

  (** Residuals. *)
  Lemma residuals solve y p : solver_sound solve -> learns solve X y p ->
    forall q, length q = D -> sumR n (fun i => (nth i y 0 - affine p (nth i (mrows X) [])) * affine q (nth i (mrows X) [])) = 0.
  Proof.
    intros Ss H q Lq. apply learns_fit in H; auto. destruct H as (_ & _ & H). refine (eq_trans _ (H (cf q))). apply sumR_ext.
    intros i Hi. now rewrite !affine_aff by exact Hi.
  Qed.

  (** ** Noise *)
  Section Noise.
    Variables (m : nat) (pr : nat -> R) (e : nat -> list R) (s2 : R).
    Hypothesis NL : noise_law n m pr e s2.
    Variable solve : matrix R -> list R -> res (list R).
    Hypothesis Se : solver_exact solve.
    Hypothesis Sp : spans X.
    Variables (w : list R) (params : nat -> list R).
    Hypothesis Lw : length w = D.
    Hypothesis Tr : forall s, (s < m)%nat -> learns solve X (observed X w (e s)) (params s).

    Lemma obs_nth s i : (s < m)%nat -> (i < n)%nat -> nth i (observed X w (e s)) 0 = aff (cf w) i + nth i (e s) 0.
    Proof.
      intros Hs Hi. unfold observed. rewrite (map2_nth Rplus _ _ i 0 0 0) by (rewrite ?map_length, ?(nl_length _ _ _ _ _ NL s Hs); auto).
      rewrite (nth_map (affine w) _ _ _ []) by exact Hi. now rewrite affine_aff.
    Qed.
    Lemma par_length s : (s < m)%nat -> length (params s) = D.
    Proof. intros Hs. now destruct (learns_fit solve _ _ (proj1 Se) (Tr s Hs)) as (_ & L & _). Qed.
    (** The error of the parameters is the fit of the noise. *)
    Lemma err_fit s : (s < m)%nat -> fit (cf (e s)) (fun k => cf (params s) k - cf w k).
    Proof.
      intros Hs. destruct (learns_fit solve _ _ (proj1 Se) (Tr s Hs)) as (_ & _ & F). intros g. refine (eq_trans _ (F g)).
      apply sumR_ext. intros i Hi. rewrite aff_minus. change (cf (observed X w (e s)) i) with (nth i (observed X w (e s)) 0). rewrite obs_nth by auto. unfold cf at 1. ring.
    Qed.

    Lemma mean_params k : (k < D)%nat -> sumR m (fun s => pr s * nth k (params s) 0) = nth k w 0.
    Proof.
      intros Hk. pose proof (spans_sep Sp) as S.
      pose proof (fit_sum m pr _ _ err_fit) as F.
      assert (Z : fit (fun i => sumR m (fun s => pr s * cf (e s) i)) (fun _ => 0)).
      { intros g. apply sumR_zero. intros i Hi. unfold cf. rewrite (nl_mean _ _ _ _ _ NL i Hi).
        rewrite (aff_ext (fun _ => 0) (fun k => 0 * g k + 0 * g k)) by (intros; ring). rewrite aff_lin. ring. }
      pose proof (fit_unique _ _ _ S F Z k Hk) as E. cbn beta in E. unfold cf in E.
      rewrite (sumR_ext m _ (fun s => pr s * nth k (params s) 0 - nth k w 0 * pr s)) in E by (intros; ring).
      rewrite sumR_minus, sumR_scal, (nl_total _ _ _ _ _ NL) in E. lra.
    Qed.

    (** Mean square of a weighted sum of the noises. *)
    Lemma noise_square u : sumR m (fun s => pr s * sumR n (fun i => u i * nth i (e s) 0) ^ 2) = s2 * sumR n (fun i => u i ^ 2).
    Proof.
      transitivity (sumR n (fun i => sumR n (fun j => u i * u j * sumR m (fun s => pr s * (nth i (e s) 0 * nth j (e s) 0))))).
      - transitivity (sumR m (fun s => sumR n (fun i => sumR n (fun j => u i * u j * (pr s * (nth i (e s) 0 * nth j (e s) 0)))))).
        + apply sumR_ext. intros s _.
          transitivity (sumR n (fun i => pr s * (u i * nth i (e s) 0) * sumR n (fun j => u j * nth j (e s) 0))).
          * rewrite sumR_scal_r'. rewrite sumR_scal. ring.
          * apply sumR_ext. intros i _. rewrite <- sumR_scal. apply sumR_ext. intros; ring.
        + rewrite sumR_exch. apply sumR_ext. intros i _. rewrite sumR_exch. apply sumR_ext. intros j _. now rewrite sumR_scal.
      - rewrite <- sumR_scal. apply sumR_ext. intros i Hi. rewrite (sumR_single n _ i Hi).
        + rewrite (sumR_ext m _ (fun s => pr s * nth i (e s) 0 ^ 2)) by (intros; ring). rewrite (nl_variance _ _ _ _ _ NL i Hi). ring.
        + intros j Hj Nj. rewrite (nl_uncorrelated _ _ _ _ _ NL i j) by auto. ring.
    Qed.

    (** The estimate is a weighting of the noise by the fit of any unbiased weighting. *)
    Lemma estimate c u v : length u = n -> unbiased X c u -> learns solve X u v -> forall y p, learns solve X y p ->
      pairing D c p = sumR n (fun i => aff (cf v) i * nth i y 0).
    Proof.
      intros Lu Hu Hv y p Hp. destruct (learns_fit solve _ _ (proj1 Se) Hv) as (_ & _ & Fv).
      destruct (learns_fit solve _ _ (proj1 Se) Hp) as (_ & Lp & Fp).
      unfold D. rewrite <- (Hu p Lp). unfold pairing. fold n.
      transitivity (sumR n (fun i => cf u i * aff (cf p) i)).
      - apply sumR_ext. intros i Hi. rewrite (nth_map (affine p) _ _ _ []) by exact Hi. now rewrite affine_aff.
      - rewrite (fit_sym _ _ _ _ Fv Fp). apply sumR_ext. intros i _. unfold cf at 1. ring.
    Qed.

    Lemma weighting c u s : length c = D -> (s < m)%nat -> length u = n -> unbiased X c u ->
      pairing n u (observed X w (e s)) - pairing D c w = sumR n (fun i => nth i u 0 * nth i (e s) 0).
    Proof.
      intros Lc Hs Lu Hu. unfold D. rewrite <- (Hu w Lw). unfold pairing. fold n. rewrite <- sumR_minus. apply sumR_ext. intros i Hi.
      rewrite obs_nth by auto. rewrite (nth_map (affine w) _ _ _ []) by exact Hi. rewrite affine_aff by exact Hi. ring.
    Qed.

    Lemma target_exists u : length u = n -> exists v, learns solve X u v.
    Proof. intros L. apply (learns_iff solve Se u). auto. Qed.

    Lemma obs_length s : (s < m)%nat -> length (observed X w (e s)) = n.
    Proof. intros Hs. now destruct (learns_fit solve _ _ (proj1 Se) (Tr s Hs)) as (L & _). Qed.

    Lemma spreads c u v : length c = D -> length u = n -> unbiased X c u -> learns solve X u v ->
      spread m pr (fun s => pairing n u (observed X w (e s))) (pairing D c w) = s2 * sumR n (fun i => nth i u 0 ^ 2) /\ spread m pr (fun s => pairing D c (params s)) (pairing D c w) = s2 * sumR n (fun i => aff (cf v) i ^ 2).
    Proof.
      intros Lc Lu Hu Hv. split.
      - rewrite <- noise_square. unfold spread. apply sumR_ext. intros s Hs. now rewrite weighting by auto.
      - rewrite <- noise_square. unfold spread. apply sumR_ext. intros s Hs. do 2 f_equal.
        rewrite (estimate c u v Lu Hu Hv _ _ (Tr s Hs)).
        assert (E : pairing D c w = sumR n (fun i => aff (cf v) i * aff (cf w) i)).
        { unfold D. rewrite <- (Hu w Lw). unfold pairing. fold n.
          transitivity (sumR n (fun i => cf u i * aff (cf w) i)).
          - apply sumR_ext. intros i Hi. rewrite (nth_map (affine w) _ _ _ []) by exact Hi. now rewrite affine_aff.
          - destruct (learns_fit solve _ _ (proj1 Se) Hv) as (_ & _ & Fv).
            rewrite (fit_sym _ _ _ _ Fv (fit_exact (cf w))). apply sumR_ext. intros; ring. }
        rewrite E, <- sumR_minus. apply sumR_ext. intros i Hi. rewrite obs_nth by auto. ring.
    Qed.

    Lemma split_square u v : learns solve X u v ->
      sumR n (fun i => nth i u 0 ^ 2) = sumR n (fun i => aff (cf v) i ^ 2) + sumR n (fun i => (nth i u 0 - aff (cf v) i) ^ 2).
    Proof.
      intros Hv. destruct (learns_fit solve _ _ (proj1 Se) Hv) as (_ & _ & Fv).
      pose proof (fit_rss _ _ Fv) as A. pose proof (fit_self _ _ Fv) as B. 
      change (sumR n (fun i => (nth i u 0 - aff (cf v) i) ^ 2) = sumR n (fun i => nth i u 0 ^ 2) - sumR n (fun i => nth i u 0 * aff (cf v) i)) in A.
      change (sumR n (fun i => nth i u 0 * aff (cf v) i) = sumR n (fun i => aff (cf v) i ^ 2)) in B. lra.
    Qed.

    Lemma s2_nonneg : (0 < n)%nat -> 0 <= s2.
    Proof.
      intros Hn. rewrite <- (nl_variance _ _ _ _ _ NL 0 Hn). apply sumR_ge0. intros s Hs.
      apply Rmult_le_pos; [now apply (nl_nonneg _ _ _ _ _ NL)|apply pow2_ge_0].
    Qed.

    Theorem gauss_markov c u : length c = D -> length u = n -> unbiased X c u ->
      spread m pr (fun s => pairing D c (params s)) (pairing D c w) <=
      spread m pr (fun s => pairing n u (observed X w (e s))) (pairing D c w).
    Proof.
      intros Lc Lu Hu. destruct (target_exists u Lu) as (v & Hv). destruct (spreads c u v Lc Lu Hu Hv) as (-> & ->).
      rewrite (split_square u v Hv).
      destruct (Nat.eq_dec n 0) as [E|NE]; [rewrite E; cbn; lra|].
      pose proof (s2_nonneg ltac:(lia)). assert (0 <= sumR n (fun i => (nth i u 0 - aff (cf v) i) ^ 2)) by (apply sumR_ge0; intros; apply pow2_ge_0).
      nra.
    Qed.

    Theorem only_best c u : length c = D -> length u = n -> unbiased X c u -> 0 < s2 ->
      spread m pr (fun s => pairing n u (observed X w (e s))) (pairing D c w) <=
      spread m pr (fun s => pairing D c (params s)) (pairing D c w) ->
      forall y p, learns solve X y p -> pairing D c p = pairing n u y.
    Proof.
      intros Lc Lu Hu P. destruct (target_exists u Lu) as (v & Hv). destruct (spreads c u v Lc Lu Hu Hv) as (-> & ->).
      rewrite (split_square u v Hv). intros H y p Hp.
      assert (Z : sumR n (fun i => (nth i u 0 - aff (cf v) i) ^ 2) = 0).
      { assert (0 <= sumR n (fun i => (nth i u 0 - aff (cf v) i) ^ 2)) by (apply sumR_ge0; intros; apply pow2_ge_0). nra. }
      rewrite (estimate c u v Lu Hu Hv y p Hp). apply sumR_ext. intros i Hi.
      apply (sumR_zero_inv n _ (fun i _ => pow2_ge_0 _)) with (i := i) in Z; auto. cbn beta in Z. assert (nth i u 0 = aff (cf v) i) by nra. now rewrite <- H0.
    Qed.
  End Noise.
End LS.
