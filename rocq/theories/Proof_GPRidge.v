(** Proofs: the Gaussian-process mean is the solution of penalised least squares. *)
From Coq Require Import List Arith Lia Bool Reals Lra.
From Verif Require Import Base BaseLemmas Num Linalg LinalgR Spec_Calc CalcR Proof_KMeans MatR Model_Kernel Spec_Kernel Model_GP Spec_GP Proof_GP Spec_GPRidge.
Import ListNotations.
Local Open Scope R_scope.

Section Ridge.
  Variables (k : list R -> list R -> R).
  Variables (dim : nat) (ker : Kernel R).
  Hypothesis Sy : forall x x', length x = dim -> length x' = dim -> k x x' = k x' x.
  Definition inner (f g : expansion) : R := fold_right (fun cz s => fst cz * value k g (snd cz) + s) 0 f.
  Definition times (t : R) (f : expansion) : expansion := map (fun cz => (t * fst cz, snd cz)) f.
  Lemma value_cons a f x : value k (a :: f) x = fst a * k x (snd a) + value k f x. Proof. reflexivity. Qed.
  Lemma value_nil x : value k [] x = 0. Proof. reflexivity. Qed.
  Lemma value_app f g x : value k (f ++ g) x = value k f x + value k g x.
  Proof. induction f as [|a f IH]; cbn [app]; [rewrite value_nil; ring|]. rewrite !value_cons, IH. ring. Qed.
  Lemma value_times t f x : value k (times t f) x = t * value k f x.
  Proof. induction f as [|a f IH]; cbn [times map]; [rewrite value_nil; ring|]. fold (times t f). rewrite !value_cons, IH. cbn [fst snd]. ring. Qed.
  Lemma inner_nil g : inner [] g = 0. Proof. reflexivity. Qed.
  Lemma inner_cons a f g : inner (a :: f) g = fst a * value k g (snd a) + inner f g. Proof. reflexivity. Qed.
  Lemma inner_app_l f g h : inner (f ++ g) h = inner f h + inner g h.
  Proof. induction f as [|a f IH]; [cbn [app]; rewrite inner_nil; ring|]. cbn [app]. rewrite !inner_cons, IH. ring. Qed.
  Lemma inner_times_l t f h : inner (times t f) h = t * inner f h.
  Proof. induction f as [|a f IH]; [cbn [times map]; rewrite inner_nil; ring|]. cbn [times map]. fold (times t f). rewrite !inner_cons, IH. cbn [fst snd]. ring. Qed.
  Lemma inner_app_r f g h : inner h (f ++ g) = inner h f + inner h g.
  Proof. induction h as [|a h IH]; [rewrite ?inner_nil, ?value_nil; ring|]. rewrite !inner_cons, IH, value_app. ring. Qed.
  Lemma inner_times_r t f h : inner h (times t f) = t * inner h f.
  Proof. induction h as [|a h IH]; [rewrite ?inner_nil, ?value_nil; ring|]. rewrite !inner_cons, IH, value_times. ring. Qed.
  Lemma inner_one h c z : points_in dim h -> length z = dim -> inner h [(c, z)] = c * value k h z.
  Proof. intros D Lz. induction D as [|a h La D IH]; [rewrite ?inner_nil, ?value_nil; ring|]. rewrite inner_cons, IH, !value_cons, value_nil, (Sy z) by auto. cbn [fst snd]. ring. Qed.
  Lemma inner_sym f g : points_in dim f -> points_in dim g -> inner f g = inner g f.
  Proof.
    intros Df Dg. induction Df as [|[c z] f L Df IH].
    - clear Dg. induction g as [|b g IH]; [reflexivity|]. rewrite inner_cons, <- IH, value_nil, !inner_nil. ring.
    - rewrite inner_cons, IH. change ((c, z) :: f) with ([(c, z)] ++ f). rewrite inner_app_r, inner_one by auto. reflexivity.
  Qed.
  Lemma norm2_inner f : norm2 k f = inner f f. Proof. reflexivity. Qed.
  Lemma value_sum f x : value k f x = sumR (length f) (fun j => fst (nth j f (0, [])) * k x (snd (nth j f (0, [])))).
  Proof.
    induction f as [|a f IH] using rev_ind; [reflexivity|]. rewrite value_app, app_length. cbn [length]. rewrite Nat.add_1_r. cbn [sumR].
    rewrite app_nth2, Nat.sub_diag by lia. cbn [nth]. rewrite IH, value_cons, value_nil, Rplus_0_r. f_equal. apply sumR_ext. intros j Hj. rewrite app_nth1 by lia. reflexivity.
  Qed.
  Lemma inner_sum f g : inner f g = sumR (length f) (fun j => fst (nth j f (0, [])) * value k g (snd (nth j f (0, [])))).
  Proof.
    induction f as [|a f IH] using rev_ind; [reflexivity|]. rewrite inner_app_l, app_length. cbn [length]. rewrite Nat.add_1_r. cbn [sumR].
    rewrite app_nth2, Nat.sub_diag by lia. cbn [nth]. rewrite IH, inner_cons, inner_nil, Rplus_0_r. f_equal. apply sumR_ext. intros j Hj. rewrite app_nth1 by lia. reflexivity.
  Qed.
  Hypotheses (P : psd_kernel dim ker) (Hk : kernel_is dim ker k).
  Lemma norm2_ge0 f : points_in dim f -> 0 <= norm2 k f.
  Proof.
    intros D. assert (Dn : forall i, (i < length f)%nat -> length (snd (nth i f (0, []))) = dim).
    { intros i Hi. exact (proj1 (Forall_forall _ _) D _ (nth_In f (0, []) Hi)). }
    destruct (P (length f) (fun i => snd (nth i f (0, []))) Dn) as (K & EK & Q). specialize (Q (fun i => fst (nth i f (0, [])))).
    rewrite norm2_inner, inner_sum. erewrite sumR_ext; [exact Q|]. intros i Hi. cbn beta. rewrite value_sum, <- sumR_scal. apply sumR_ext. intros j Hj.
    specialize (EK i j Hi Hj). rewrite Hk in EK by auto. injection EK as <-. ring.
  Qed.
  Lemma points_app f g : points_in dim f -> points_in dim g -> points_in dim (f ++ g). Proof. intros; apply Forall_app; auto. Qed.
  Lemma points_times t f : points_in dim f -> points_in dim (times t f).
  Proof. intros D. apply Forall_forall. intros [c z] H. apply in_map_iff in H. destruct H as ([c' z'] & E & H). injection E as <- <-. exact (proj1 (Forall_forall _ _) D _ H). Qed.
  (** A function of norm 0 is 0. *)
  Lemma norm2_zero f x : points_in dim f -> length x = dim -> norm2 k f = 0 -> value k f x = 0.
  Proof.
    intros D Lx Z. set (v := value k f x).
    assert (T : forall t, 0 <= 2 * t * v + t * t * k x x).
    { intros t. assert (D' : points_in dim (f ++ [(t, x)])) by (apply points_app; [exact D|repeat constructor; exact Lx]).
      pose proof (norm2_ge0 _ D') as G. assert (D1 : points_in dim [(t, x)]) by (repeat constructor; exact Lx). rewrite norm2_inner, inner_app_l, !inner_app_r, !inner_one in G by auto. rewrite (inner_sym [(t, x)] f), inner_one in G by auto.
      rewrite norm2_inner in Z. rewrite Z in G. cbn in G. fold v in G. lra. }
    assert (K0 : 0 <= k x x) by (assert (D' : points_in dim [(1, x)]) by (repeat constructor; exact Lx); pose proof (norm2_ge0 _ D') as G; cbn in G; lra).
    destruct (Req_dec (k x x) 0) as [E|E].
    - pose proof (T 1). pose proof (T (-1)). rewrite E in *. lra.
    - assert (KP : 0 < k x x) by lra. pose proof (T (- v / k x x)) as G.
      replace (2 * (- v / k x x) * v + - v / k x x * (- v / k x x) * k x x) with (- (v * v) / k x x) in G by (field; lra).
      assert (0 <= v * v) by (pose proof (Rle_0_sqr v); unfold Rsqr in *; lra).
      assert (v * v = 0). { apply Rle_antisym; [|assumption]. apply (Rmult_le_compat_r (k x x)) in G; [|lra]. unfold Rdiv in G. rewrite Rmult_assoc, Rinv_l in G by lra. lra. }
      apply Rsqr_0_uniq. exact H0.
  Qed.

  (** Penalised least squares. *)
  Variables (X : matrix R) (d : nat -> R) (noise : R) (a : list R).
  Hypotheses (W : mwf X) (C : mcols X = dim) (Hn : 0 <= noise) (HS : solves k noise X a d).
  Definition fit : expansion := combine a (mrows X).
  Lemma fit_len : length fit = nrows X.
  Proof. unfold fit. rewrite combine_length. destruct HS as [L _]. unfold nrows in *. lia. Qed.
  Lemma fit_nth i : (i < nrows X)%nat -> nth i fit (0, []) = (nth i a 0, pt X i).
  Proof. intros Hi. unfold fit, pt. apply combine_nth. exact (proj1 HS). Qed.
  Lemma fit_value x : value k fit x = against k X a x.
  Proof. rewrite value_sum, fit_len. unfold against. apply sumR_ext. intros j Hj. rewrite fit_nth by auto. cbn. ring. Qed.
  Lemma fit_points : points_in dim fit.
  Proof.
    apply Forall_forall. intros [c z] H. apply (In_nth _ _ (0, [])) in H. destruct H as (i & Hi & E). rewrite fit_len in Hi. rewrite fit_nth in E by auto.
    injection E as <- <-. cbn. rewrite <- C. apply mwf_row; auto.
  Qed.
  Lemma fit_inner g : inner fit g = sumR (nrows X) (fun i => nth i a 0 * value k g (pt X i)).
  Proof. rewrite inner_sum, fit_len. apply sumR_ext. intros j Hj. rewrite fit_nth by auto. reflexivity. Qed.
  Lemma fit_residual i : (i < nrows X)%nat -> d i - value k fit (pt X i) = noise * nth i a 0.
  Proof. intros Hi. rewrite fit_value. unfold against. rewrite <- (proj2 HS i Hi). ring. Qed.
  Lemma gap g : points_in dim g -> penalised k noise X d g = penalised k noise X d fit +
    sumR (nrows X) (fun i => (value k g (pt X i) - value k fit (pt X i)) ^ 2) + noise * norm2 k (g ++ times (-1) fit).
  Proof.
    intros D. unfold penalised. rewrite (norm2_inner (g ++ _)), inner_app_l, !inner_app_r, !inner_times_l, !inner_times_r, (inner_sym g fit), <- !norm2_inner by (exact D || exact fit_points).
    assert (E : sumR (nrows X) (fun i => (d i - value k g (pt X i)) ^ 2) = sumR (nrows X) (fun i => (d i - value k fit (pt X i)) ^ 2) +
      sumR (nrows X) (fun i => (value k g (pt X i) - value k fit (pt X i)) ^ 2) - 2 * noise * (inner fit g - norm2 k fit)).
    { rewrite norm2_inner, !fit_inner, <- sumR_minus, <- sumR_scal, <- sumR_plus, <- sumR_minus. apply sumR_ext. intros i Hi. rewrite <- Rmult_minus_distr_l.
      replace (2 * noise * (nth i a 0 * (value k g (pt X i) - value k fit (pt X i)))) with (2 * (d i - value k fit (pt X i)) * (value k g (pt X i) - value k fit (pt X i))) by (rewrite fit_residual by auto; ring).
      ring. }
    rewrite E. ring.
  Qed.
  Theorem fit_best g : points_in dim g ->
    penalised k noise X d fit <= penalised k noise X d g /\
    (0 < noise -> penalised k noise X d g = penalised k noise X d fit -> forall x, length x = dim -> value k g x = value k fit x) /\
    (noise = 0 -> (forall i, (i < nrows X)%nat -> value k g (pt X i) = d i) -> norm2 k fit <= norm2 k g).
  Proof.
    intros D. pose proof (gap g D) as G. assert (DD : points_in dim (g ++ times (-1) fit)) by (apply points_app; [exact D|apply points_times, fit_points]).
    pose proof (norm2_ge0 _ DD) as N0.
    assert (S0 : 0 <= sumR (nrows X) (fun i => (value k g (pt X i) - value k fit (pt X i)) ^ 2)) by (apply sumR_ge0; intros; apply pow2_ge_0).
    assert (M0 : 0 <= noise * norm2 k (g ++ times (-1) fit)) by (apply Rmult_le_pos; lra).
    split; [lra|]. split.
    - intros Hp E x Lx. assert (Z : noise * norm2 k (g ++ times (-1) fit) = 0) by lra. apply Rmult_integral in Z. destruct Z as [Z|Z]; [lra|].
      pose proof (norm2_zero _ x DD Lx Z) as V. rewrite value_app, value_times in V. lra.
    - intros Hz Hg. rewrite norm2_inner, inner_app_l, !inner_app_r, !inner_times_l, !inner_times_r, (inner_sym g fit), <- !norm2_inner in N0 by (exact D || exact fit_points).
      assert (E : inner fit g = norm2 k fit).
      { rewrite norm2_inner, !fit_inner. apply sumR_ext. intros i Hi. rewrite Hg by auto. pose proof (fit_residual i Hi). rewrite Hz in *. replace (value k fit (pt X i)) with (d i) by lra. reflexivity. }
      rewrite E in N0. lra.
  Qed.
End Ridge.

Theorem gp_ridge (ker : Kernel R) k mean cholesky solve_l solve_u (self self' : GaussianProcess R) X y :
  cholesky_sound cholesky -> triangular_sound lower_triangular solve_l -> triangular_sound upper_triangular solve_u -> mwf X -> kernel_is (mcols X) ker k -> psd_kernel (mcols X) ker ->
  (forall x x', length x = mcols X -> length x' = mcols X -> k x x' = k x' x) -> 0 <= gp_noise self -> gp_train ker mean cholesky solve_l solve_u self X y = (self', Ok tt) ->
  exists f, points_in (mcols X) f /\
    (forall Xs, mwf Xs -> mcols Xs = mcols X -> length (mean Xs) = nrows Xs -> exists out, gp_predict ker mean self' Xs = Ok out /\ length out = nrows Xs /\
       forall i, (i < nrows Xs)%nat -> nth i out 0 = nth i (mean Xs) 0 + value k f (pt Xs i)) /\
    let d := fun i => nth i y 0 - nth i (mean X) 0 in
    forall g, points_in (mcols X) g ->
      penalised k (gp_noise self) X d f <= penalised k (gp_noise self) X d g /\
      (0 < gp_noise self -> penalised k (gp_noise self) X d g = penalised k (gp_noise self) X d f -> forall x, length x = mcols X -> value k g x = value k f x) /\
      (gp_noise self = 0 -> (forall i, (i < nrows X)%nat -> value k g (pt X i) = d i) -> norm2 k f <= norm2 k g).
Proof.
  intros H1 H2 H3 W Hk P Sy Hn HT. destruct (gp_alpha_solves _ _ _ _ _ _ _ _ _ _ H1 H2 H3 W Hk HT) as (_ & a & Ea & Sa & _).
  exists (fit X a). split; [eapply fit_points; eauto|]. split.
  - intros Xs WX CX LX. destruct (gp_predict_mean _ _ _ _ _ _ _ _ _ _ H1 H2 H3 W Hk HT Xs WX CX LX) as (a' & out & Ea' & E & Lo & V).
    rewrite Ea in Ea'. injection Ea' as <-. exists out. split; [exact E|]. split; [exact Lo|]. intros i Hi. rewrite (V i Hi). f_equal. symmetry.
    eapply fit_value; eauto.
  - intros d g D. exact (fit_best k (mcols X) ker Sy P Hk X d (gp_noise self) a W eq_refl Hn Sa g D).
Qed.
