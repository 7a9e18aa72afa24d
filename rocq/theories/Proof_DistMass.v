(** Total mass, mean and variance of the distributions. *)
From Coq Require Import Reals Lra.
From Coquelicot Require Import Coquelicot.
From Verif Require Import Base BaseLemmas Num NumFn NumSign Model_Dist Spec_Dist Proof_Dist Proof_Cdf Proof_GaussInt.
Local Open Scope R_scope.

Lemma at_point_lim (P : R -> R) x : filterlim P (at_point x) (locally (P x)).
Proof. intros Q HQ. apply locally_singleton in HQ. exact HQ. Qed.

Lemma gen_ext (f g : R -> R) (Fa Fb : (R -> Prop) -> Prop) {FFa : Filter Fa} {FFb : Filter Fb} (l : R) :
  (forall x, f x = g x) -> is_RInt_gen f Fa Fb l -> is_RInt_gen g Fa Fb l.
Proof. intros H. apply is_RInt_gen_ext. apply filter_forall. intros ab x _. apply H. Qed.

Section Exp.
  Variable l : R. Hypothesis Hl : 0 < l.
  Lemma exp_cube x : 1 <= x -> exp (- x * l) <= 27 / l ^ 3 / x ^ 3.
  Proof.
    intros H. assert (P : 0 < x * l) by nra. replace (- x * l) with (- (x * l)) by ring. rewrite exp_Ropp.
    assert (Q : (x * l / 3) ^ 3 <= exp (x * l)).
    { replace (x * l) with (x * l / 3 + x * l / 3 + x * l / 3) at 2 by field. rewrite !exp_plus. pose proof (exp_ineq1_le (x * l / 3)) as E.
      replace ((x * l / 3) ^ 3) with (x * l / 3 * (x * l / 3) * (x * l / 3)) by ring.
      apply Rmult_le_compat; [apply Rmult_le_pos; lra|lra| |lra]. apply Rmult_le_compat; lra. }
    apply Rle_trans with (/ (x * l / 3) ^ 3); [apply Rinv_le_contravar; [apply pow_lt; lra|exact Q]|]. right. field. lra.
  Qed.
  (** A quadratic times the density has the primitive [(a + b x + c x^2) exp (- x l)]. *)
  Lemma exp_poly a b c : is_RInt_gen (fun x => (b + 2 * c * x - l * (a + b * x + c * x ^ 2)) * exp (- x * l)) (at_point 0) (Rbar_locally p_infty) (- a).
  Proof.
    set (P := fun x => (a + b * x + c * x ^ 2) * exp (- x * l)). replace (- a) with (0 - P 0).
    2:{ unfold P. replace (- 0 * l) with 0 by ring. rewrite exp_0. ring. }
    apply (gen_primitive _ P (at_point 0) (Rbar_locally p_infty)).
    - intros x. unfold P. auto_derive; [exact I|]. set (z := exp _). ring.
    - intros x. apply (ex_derive_continuous (fun x => (b + 2 * c * x - l * (a + b * x + c * x ^ 2)) * exp (- x * l))). auto_derive. exact I.
    - apply at_point_lim.
    - apply near_p with (K := (Rabs a + Rabs b + Rabs c) * (27 / l ^ 3)). intros x Hx. rewrite Rminus_0_r. unfold P. rewrite Rabs_mult, (Rabs_pos_eq (exp _)) by (left; apply exp_pos).
      pose proof (exp_cube x Hx) as E.
      assert (B : Rabs (a + b * x + c * x ^ 2) <= (Rabs a + Rabs b + Rabs c) * x ^ 2).
      { eapply Rle_trans; [apply Rabs_triang|]. rewrite (Rabs_mult c), (Rabs_pos_eq (x ^ 2)) by (apply pow2_ge_0).
        pose proof (Rabs_triang a (b * x)) as T. rewrite (Rabs_mult b), (Rabs_pos_eq x) in T by lra. pose proof (Rabs_pos a). pose proof (Rabs_pos b).
        assert (1 <= x ^ 2) by nra. assert (x <= x ^ 2) by nra. nra. }
      apply Rle_trans with ((Rabs a + Rabs b + Rabs c) * x ^ 2 * (27 / l ^ 3 / x ^ 3)).
      + apply Rmult_le_compat; [apply Rabs_pos|left; apply exp_pos|exact B|exact E].
      + right. field. lra.
  Qed.
  Definition epdf (x : R) : R := exp (- x * l) * l.
  Theorem exp_moments : exists p, (forall x, 0 <= x -> exp_pdf (exponential_new l) x = Ok (p x)) /\
    (forall x, 0 <= x -> exists c, exp_cdf (exponential_new l) x = Ok c /\ is_RInt p 0 x c) /\
    is_RInt_gen p (at_point 0) (Rbar_locally p_infty) 1 /\
    is_RInt_gen (fun x => x * p x) (at_point 0) (Rbar_locally p_infty) (/ l) /\
    is_RInt_gen (fun x => (x - / l) ^ 2 * p x) (at_point 0) (Rbar_locally p_infty) (/ l ^ 2).
  Proof.
    exists epdf. repeat split.
    - intros x Hx. apply exp_pdf_R. exact Hx.
    - intros x Hx. exists (1 - exp (- x * l)). split; [apply exp_cdf_R; exact Hx|].
      replace (1 - exp (- x * l)) with (minus (- exp (- x * l)) (- exp (- 0 * l))).
      2:{ change (- exp (- x * l) - - exp (- 0 * l) = 1 - exp (- x * l)). replace (- 0 * l) with 0 by ring. rewrite exp_0. ring. }
      apply (is_RInt_derive (V := R_CompleteNormedModule) (fun x => - exp (- x * l)) epdf).
      + intros y _. unfold epdf. auto_derive; [exact I|]. set (z := exp _). ring.
      + intros y _. apply (ex_derive_continuous epdf). unfold epdf. auto_derive. exact I.
    - replace 1 with (- (-1)) at 1 by ring. refine (gen_ext _ _ _ _ _ _ (exp_poly (-1) 0 0)).
      intros x. unfold epdf. ring.
    - replace (/ l) with (- (- / l)) by ring. refine (gen_ext _ _ _ _ _ _ (exp_poly (- / l) (-1) 0)).
      intros x. unfold epdf. cbv beta. field. lra.
    - replace (/ l ^ 2) with (- (- / l ^ 2)) by ring. refine (gen_ext _ _ _ _ _ _ (exp_poly (- / l ^ 2) 0 (-1))).
      intros x. unfold epdf. cbv beta. field. lra.
  Qed.
  Theorem exp_memoryless s t : 0 <= s -> 0 <= t -> exists cs ct cst,
    exp_cdf (exponential_new l) s = Ok cs /\ exp_cdf (exponential_new l) t = Ok ct /\ exp_cdf (exponential_new l) (s + t) = Ok cst /\ 1 - cst = (1 - cs) * (1 - ct).
  Proof.
    intros Hs Ht. exists (1 - exp (- s * l)), (1 - exp (- t * l)), (1 - exp (- (s + t) * l)).
    repeat split; try (apply exp_cdf_R; lra). replace (- (s + t) * l) with (- s * l + - t * l) by ring. rewrite exp_plus. ring.
  Qed.
End Exp.

Section Gauss.
  Variables m v : R. Hypothesis Hv : 0 < v.
  Let s := sqrt v. Let y (x : R) := (x - m) / s. Let c := / sqrt (2 * PI).
  Lemma s_pos : 0 < s. Proof. now apply sqrt_lt_R0. Qed.
  Lemma s_sq : s * s = v. Proof. apply sqrt_sqrt. lra. Qed.
  Lemma y_p : filterlim y (Rbar_locally p_infty) (Rbar_locally p_infty).
  Proof.
    pose proof s_pos as S. intros Q (M & HQ). exists (M * s + m). intros x Hx. apply HQ. unfold y. apply Rlt_div_r; lra.
  Qed.
  Lemma y_m : filterlim y (Rbar_locally m_infty) (Rbar_locally m_infty).
  Proof.
    pose proof s_pos as S. intros Q (M & HQ). exists (M * s + m). intros x Hx. apply HQ. unfold y. apply Rlt_div_l; lra.
  Qed.
  Definition curve (a b d t : R) : R := a * area t + (b + d * t) * hump t.
  Lemma curve_deriv a b d t : is_derive (curve a b d) t (((a + d) - b * t - d * t ^ 2) * hump t).
  Proof.
    unfold curve. evar_last.
    - apply (is_derive_plus (fun t => a * area t) (fun t => (b + d * t) * hump t)).
      + apply (is_derive_scal area t a). apply area_deriv.
      + apply (is_derive_mult (fun t => b + d * t) hump t d (- t * hump t)); [auto_derive; [exact I|ring]|apply hump_deriv|intros; apply Rmult_comm].
    - unfold plus, mult. simpl. ring.
  Qed.
  Lemma small_p b d t : 1 <= t -> Rabs ((b + d * t) * hump t) <= 2 * (Rabs b + Rabs d) / t.
  Proof.
    intros H. rewrite Rabs_mult, (Rabs_pos_eq (hump t)) by (left; apply hump_pos). pose proof (hump_decay t ltac:(lra)) as HD.
    pose proof (Rabs_triang b (d * t)) as T. rewrite (Rabs_mult d), (Rabs_pos_eq t) in T by lra. pose proof (Rabs_pos b). pose proof (Rabs_pos d).
    apply Rle_trans with ((Rabs b + Rabs d) * t * (2 / t ^ 2)).
    - apply Rmult_le_compat; [apply Rabs_pos|left; apply hump_pos|nra|exact HD].
    - right. field. lra.
  Qed.
  Lemma hump_even t : hump (- t) = hump t. Proof. unfold hump. f_equal. f_equal. field. Qed.
  Lemma curve_p a b d : filterlim (curve a b d) (Rbar_locally p_infty) (locally (a * sqrt (PI / 2))).
  Proof.
    apply near_p with (K := Rabs a * (4 / sqrt (PI / 2)) + 2 * (Rabs b + Rabs d)). intros t H. unfold curve.
    replace (a * area t + (b + d * t) * hump t - a * sqrt (PI / 2)) with (a * (area t - sqrt (PI / 2)) + (b + d * t) * hump t) by ring.
    eapply Rle_trans; [apply Rabs_triang|]. rewrite Rabs_mult. pose proof (small_p b d t H). pose proof (area_gap t H).
    apply Rle_trans with (Rabs a * (4 / sqrt (PI / 2) / t) + 2 * (Rabs b + Rabs d) / t).
    - apply Rplus_le_compat; [apply Rmult_le_compat_l; [apply Rabs_pos|assumption]|assumption].
    - right. unfold Rdiv. ring.
  Qed.
  Lemma curve_m a b d : filterlim (curve a b d) (Rbar_locally m_infty) (locally (- (a * sqrt (PI / 2)))).
  Proof.
    apply near_m with (K := Rabs a * (4 / sqrt (PI / 2)) + 2 * (Rabs (- b) + Rabs d)). intros t H. unfold curve. rewrite area_opp, hump_even.
    replace (a * - area t + (b + d * - t) * hump t - - (a * sqrt (PI / 2))) with (- (a * (area t - sqrt (PI / 2)) + (- b + d * t) * hump t)) by ring. rewrite Rabs_Ropp.
    eapply Rle_trans; [apply Rabs_triang|]. rewrite Rabs_mult. pose proof (small_p (- b) d t H). pose proof (area_gap t H).
    apply Rle_trans with (Rabs a * (4 / sqrt (PI / 2) / t) + 2 * (Rabs (- b) + Rabs d) / t).
    - apply Rplus_le_compat; [apply Rmult_le_compat_l; [apply Rabs_pos|assumption]|assumption].
    - right. unfold Rdiv. ring.
  Qed.
  Definition slope (a b d x : R) : R := ((a + d) - b * y x - d * y x ^ 2) * hump (y x) / s.
  Lemma prim a b d x : is_derive (fun x => curve a b d (y x)) x (slope a b d x).
  Proof.
    pose proof s_pos as S. evar_last.
    - apply (is_derive_comp (curve a b d) y x); [apply curve_deriv|]. unfold y. auto_derive; [exact I|]. reflexivity.
    - unfold scal, slope. simpl. unfold mult. simpl. field. lra.
  Qed.
  Lemma slope_cont a b d x : continuous (slope a b d) x.
  Proof.
    apply (ex_derive_continuous (slope a b d)). unfold slope, y, hump. auto_derive. exact I.
  Qed.
  Lemma slope_all a b d : is_RInt_gen (slope a b d) (Rbar_locally m_infty) (Rbar_locally p_infty) (a * sqrt (2 * PI)).
  Proof.
    replace (a * sqrt (2 * PI)) with (a * sqrt (PI / 2) - - (a * sqrt (PI / 2))).
    - apply (gen_primitive _ (fun x => curve a b d (y x)) (Rbar_locally m_infty) (Rbar_locally p_infty)); [intros x; apply prim|intros x; apply slope_cont| |].
      + eapply filterlim_comp; [exact y_m|apply curve_m].
      + eapply filterlim_comp; [exact y_p|apply curve_p].
    - pose proof PI_RGT_0. replace (2 * PI) with (2 * 2 * (PI / 2)) by field. rewrite sqrt_mult, sqrt_square by lra. ring.
  Qed.
  Lemma pi2 : 0 < sqrt (2 * PI). Proof. apply sqrt_lt_R0. pose proof PI_RGT_0. lra. Qed.
  Lemma dens x : gauss_pdf (gaussian_new m v) x = c * hump (y x) / s.
  Proof.
    rewrite gauss_pdf_R by exact Hv. unfold normal_density, hump, c, y. rewrite sqrt_mult by (pose proof PI_RGT_0; lra). fold s.
    pose proof s_pos as S. pose proof pi2 as P. replace (- (x - m) ^ 2 / (2 * v)) with (- (((x - m) / s) ^ 2 / 2)) by (rewrite <- s_sq; field; lra). field. lra.
  Qed.
  Theorem gauss_mass : is_RInt_gen (gauss_pdf (gaussian_new m v)) (Rbar_locally m_infty) (Rbar_locally p_infty) 1.
  Proof.
    pose proof pi2 as P. replace 1 with (c * sqrt (2 * PI)) by (unfold c; field; lra). refine (gen_ext _ _ _ _ _ _ (slope_all c 0 0)).
    intros x. rewrite dens. unfold slope. pose proof s_pos. field. lra.
  Qed.
  Theorem gauss_mean : is_RInt_gen (fun x => x * gauss_pdf (gaussian_new m v) x) (Rbar_locally m_infty) (Rbar_locally p_infty) m.
  Proof.
    pose proof pi2 as P. pose proof (slope_all (m * c) (- s * c) 0) as H. replace (m * c * sqrt (2 * PI)) with m in H by (unfold c; field; lra). refine (gen_ext _ _ _ _ _ _ H).
    intros x. cbv beta. rewrite dens. unfold slope. pose proof s_pos. set (z := hump (y x)). unfold y. field. lra.
  Qed.
  Theorem gauss_variance : is_RInt_gen (fun x => (x - m) ^ 2 * gauss_pdf (gaussian_new m v) x) (Rbar_locally m_infty) (Rbar_locally p_infty) v.
  Proof.
    pose proof pi2 as P. pose proof (slope_all (v * c) 0 (- v * c)) as H. replace (v * c * sqrt (2 * PI)) with v in H by (unfold c; field; lra). refine (gen_ext _ _ _ _ _ _ H).
    intros x. cbv beta. rewrite dens. unfold slope. pose proof s_pos. set (z := hump (y x)). rewrite <- s_sq. unfold y. field. lra.
  Qed.
  Theorem normal_cdf_mass x : is_RInt_gen (gauss_pdf (gaussian_new m v)) (Rbar_locally m_infty) (at_point x) (normal_cdf m v x).
  Proof.
    pose proof pi2 as P. pose proof s_pos as S. assert (P0 := PI_RGT_0).
    assert (E : forall z, slope c 0 0 z = gauss_pdf (gaussian_new m v) z) by (intros z; rewrite dens; unfold slope; field; lra).
    assert (HC : c * sqrt (PI / 2) = / 2).
    { unfold c. replace (2 * PI) with (2 * 2 * (PI / 2)) by field. rewrite sqrt_mult, sqrt_square by lra. assert (0 < sqrt (PI / 2)) by (apply sqrt_lt_R0; lra). field. lra. }
    replace (normal_cdf m v x) with (curve c 0 0 (y x) - - (c * sqrt (PI / 2))).
    - apply (gen_ext (slope c 0 0) _ (Rbar_locally m_infty) (at_point x)); [|apply (gen_primitive (slope c 0 0) (fun x => curve c 0 0 (y x)) (Rbar_locally m_infty) (at_point x))].
      + exact E.
      + intros z; apply prim.
      + intros z; apply slope_cont.
      + eapply filterlim_comp; [exact y_m|apply curve_m].
      + apply (at_point_lim (fun x => curve c 0 0 (y x))).
    - unfold normal_cdf. assert (H : is_RInt (normal_density m v) m x (minus (curve c 0 0 (y x)) (curve c 0 0 (y m)))).
      { apply (is_RInt_ext (V := R_NormedModule) (slope c 0 0)); [intros z _; rewrite E; now apply gauss_pdf_R|].
        apply (is_RInt_derive (V := R_CompleteNormedModule) (fun x => curve c 0 0 (y x))); intros z _; [apply prim|apply slope_cont]. }
      apply (is_RInt_unique (V := R_CompleteNormedModule)) in H. rewrite H, HC. unfold minus, plus, opp. simpl.
      replace (y m) with 0 by (unfold y; field; lra). unfold curve at 3. rewrite area_0. ring.
  Qed.
  Theorem cdf_vs_mass x p : is_RInt_gen (gauss_pdf (gaussian_new m v)) (Rbar_locally m_infty) (at_point x) p -> Rabs (gauss_cdf (gaussian_new m v) x - p) <= 35 / 10000.
  Proof.
    intros H. replace p with (normal_cdf m v x); [now apply cdf_accuracy|].
    pose proof (is_RInt_gen_unique _ _ H) as E1. pose proof (is_RInt_gen_unique _ _ (normal_cdf_mass x)) as E2. congruence.
  Qed.
End Gauss.
