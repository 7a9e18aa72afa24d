From Coq Require Import Reals Lra Lia Arith Bool.
From Coquelicot Require Import Coquelicot.
From Verif Require Import Base BaseLemmas Num NumX NumFn NumSign Proof_SVM RealBounds Model_Dist Spec_Dist.
Local Open Scope R_scope.

(** ** Exponential *)
Lemma exp_dist_panic {F} {N : Num F} {NF : NumFn F} (e : Exponential F) x :
  (exp_pdf e x = Panic <-> nleb nzero x = false) /\ (exp_logpdf e x = Panic <-> nleb nzero x = false) /\ (exp_cdf e x = Panic <-> nleb nzero x = false).
Proof. unfold exp_pdf, exp_logpdf, exp_cdf, rassert. destruct (nleb nzero x); repeat split; try discriminate; auto. Qed.

Lemma leb0_R (x : R) : 0 <= x -> @nleb R NumR nzero x = true.
Proof. intros H. cbn. destruct (Rle_dec 0 x); [auto|contradiction]. Qed.
Lemma leb0_R' (x : R) : x < 0 -> @nleb R NumR nzero x = false.
Proof. intros H. cbn. destruct (Rle_dec 0 x); [lra|auto]. Qed.

Section Exponential.
  Variable l : R.
  Hypothesis L : 0 < l.
  Let e : Exponential R := exponential_new l.
  Lemma exp_pdf_R x : 0 <= x -> exp_pdf e x = Ok (exp (- x * l) * l).
  Proof. intros H. unfold exp_pdf. rewrite leb0_R by auto. reflexivity. Qed.
  Lemma exp_cdf_R x : 0 <= x -> exp_cdf e x = Ok (1 - exp (- x * l)).
  Proof. intros H. unfold exp_cdf. rewrite leb0_R by auto. reflexivity. Qed.
  Theorem exp_pdf_logpdf x : 0 <= x -> exists p, exp_pdf e x = Ok p /\ 0 < p /\ exp_logpdf e x = Ok (ln p).
  Proof.
    intros H. exists (exp (- x * l) * l). pose proof (exp_pos (- x * l)). split; [now apply exp_pdf_R|]. split; [nra|].
    unfold exp_logpdf. rewrite leb0_R by auto. cbn [rassert]. rewrite ln_mult, ln_exp by auto. cbn. f_equal. ring.
  Qed.
  Theorem exp_cdf_deriv : exists c, (forall x, 0 <= x -> exp_cdf e x = Ok (c x)) /\ c 0 = 0 /\
    (forall x, 0 <= x -> exists p, exp_pdf e x = Ok p /\ derivable_pt_lim c x p) /\
    (forall x y, 0 <= x -> x < y -> c x < c y) /\ (forall x, 0 <= x -> 0 <= c x < 1) /\
    (forall eps, 0 < eps -> exists x0, 0 <= x0 /\ forall x, x0 <= x -> 1 - eps < c x).
  Proof.
    exists (fun x => 1 - exp (- x * l)). split; [exact exp_cdf_R|]. split; [rewrite Ropp_0, Rmult_0_l, exp_0; ring|]. split; [|split; [|split]].
    - intros x H. eexists. split; [now apply exp_pdf_R|]. apply is_derive_Reals. auto_derive; auto. ring.
    - intros x y _ H. assert (exp (- y * l) < exp (- x * l)) by (apply exp_increasing; nra). lra.
    - intros x H. pose proof (exp_pos (- x * l)). assert (exp (- x * l) <= exp 0) by (destruct (Rle_lt_or_eq_dec 0 x H) as [P| <-];
        [left; apply exp_increasing; nra|right; f_equal; ring]). rewrite exp_0 in *. lra.
    - intros eps He. destruct (Rlt_dec 1 eps) as [B|B].
      + exists 0. split; [lra|]. intros x H. assert (exp (- x * l) <= exp 0) by (destruct H as [P| <-]; [left; apply exp_increasing; nra|right; f_equal; ring]). rewrite exp_0 in *. lra.
      + exists ((1 - ln eps) / l). assert (ln eps <= 0). { rewrite <- ln_1. destruct (Rle_lt_or_eq_dec eps 1 ltac:(lra)) as [P| ->]; [left; apply ln_increasing; lra|lra]. }
        assert (P : 0 <= (1 - ln eps) / l) by (apply Rmult_le_pos; [lra|left; now apply Rinv_0_lt_compat]). split; [auto|].
        intros x H'. assert (exp (- x * l) < eps); [|lra]. apply Rlt_le_trans with (exp (ln eps)); [|right; now apply exp_ln]. apply exp_increasing.
        assert ((1 - ln eps) / l * l <= x * l) by (apply Rmult_le_compat_r; lra). unfold Rdiv in H0. rewrite Rmult_assoc, Rinv_l in H0 by lra. lra.
  Qed.
  (** [Exp1] draws have distribution function [1 - exp (-n)]: the sample is at most [x] iff the draw is at
      most [lambda x], and the distribution functions agree there. *)
  Theorem exp_sample_cdf n x : 0 <= n -> 0 <= x -> 0 <= exp_sample e n /\ (exp_sample e n <= x <-> n <= l * x) /\ exp_cdf e x = exp_cdf (exponential_default) (l * x).
  Proof.
    intros Hn Hx. unfold exp_sample. cbn [ndiv NumR lambda e]. split; [apply Rmult_le_pos; [auto|left; now apply Rinv_0_lt_compat]|]. split.
    - split; intros H.
      + apply (Rmult_le_compat_r l) in H; [|lra]. unfold Rdiv in H. rewrite Rmult_assoc, Rinv_l in H by lra. lra.
      + apply (Rmult_le_reg_r l); auto. unfold Rdiv. rewrite Rmult_assoc, Rinv_l by lra. lra.
    - rewrite exp_cdf_R by auto. unfold exp_cdf. rewrite leb0_R by nra. cbn. f_equal. f_equal. f_equal. ring.
  Qed.
End Exponential.

(** ** Gaussian *)
Section Gaussian.
  Variables m v : R.
  Hypothesis V : 0 < v.
  Let g : Gaussian R := gaussian_new m v.
  Let sp : 0 < sqrt v := sqrt_lt_R0 v V.
  Lemma two_pi : 0 < 2 * PI. Proof. pose proof PI_RGT_0. lra. Qed.

  Lemma gauss_pdf_R x : gauss_pdf g x = normal_density m v x.
  Proof.
    unfold gauss_pdf, normal_density, sqrt_2_pi, two. cbn. rewrite (sqrt_mult (2 * PI) v) by (pose proof two_pi; lra).
    replace (1 + 1) with 2 by ring. f_equal. f_equal. field. lra.
  Qed.
  Lemma density_pos x : 0 < normal_density m v x.
  Proof. unfold normal_density. apply Rdiv_lt_0_compat; [apply exp_pos|]. apply sqrt_lt_R0. pose proof two_pi. nra. Qed.
  Theorem gauss_logpdf_R x : gauss_logpdf g x = ln (gauss_pdf g x).
  Proof.
    rewrite gauss_pdf_R. unfold normal_density. pose proof two_pi as T.
    rewrite ln_div; [|apply exp_pos|apply sqrt_lt_R0; nra]. rewrite ln_exp, sqrt_mult by lra.
    rewrite ln_mult; [|now apply sqrt_lt_R0|auto].
    unfold gauss_logpdf, ln_2_pi, two. cbn [g_std_dev g_mean g_variance g gaussian_new nopp nsub nadd ndiv nmul nln nsqrt nonev NumR NumFnR npi]. replace (1 + 1) with 2 by ring.
    assert (E : ln (sqrt (2 * PI)) = ln (2 * PI) / 2).
    { rewrite <- (sqrt_sqrt (2 * PI)) at 2 by lra. rewrite ln_mult by (now apply sqrt_lt_R0). field. }
    rewrite E. field. lra.
  Qed.
  Theorem gauss_pdf_shape x d : 0 < gauss_pdf g x /\ gauss_pdf g (m + d) = gauss_pdf g (m - d) /\ (x <> m -> gauss_pdf g x < gauss_pdf g m).
  Proof.
    rewrite !gauss_pdf_R. split; [apply density_pos|]. split; [unfold normal_density; do 2 f_equal; field; lra|]. intros Hx.
    unfold normal_density. apply Rmult_lt_compat_r; [apply Rinv_0_lt_compat, sqrt_lt_R0; pose proof two_pi; nra|]. apply exp_increasing.
    assert (0 < (x - m) ^ 2) by (apply pow2_gt_0; lra). unfold Rdiv. assert (0 < / (2 * v)) by (apply Rinv_0_lt_compat; lra). replace ((m - m) ^ 2) with 0 by ring. nra.
  Qed.

  Definition polya (z : R) : R := sqrt (1 - exp (- (2 / PI) * z ^ 2 / v)).
  Lemma gauss_cdf_R x : gauss_cdf g x = if Rlt_dec (x - m) 0 then / 2 * (1 - polya (x - m)) else / 2 * (1 + polya (x - m)).
  Proof.
    unfold gauss_cdf. rewrite nsignum_R. unfold half, two, polya. cbn [g_mean g_variance g gaussian_new nopp nsub nadd ndiv nmul nexp nsqrt nonev NumR NumFnR npi].
    replace (- ((1 + 1) / PI) * (x - m) * (x - m) / v) with (- (2 / PI) * (x - m) ^ 2 / v) by (field; pose proof PI_RGT_0; lra).
    destruct (Rlt_dec (x - m) 0); field.
  Qed.
  Lemma polya_range z : 0 <= polya z < 1.
  Proof.
    unfold polya. set (u := exp _). assert (0 < u) by apply exp_pos. split; [apply sqrt_pos|]. rewrite <- sqrt_1 at 2. apply sqrt_lt_1_alt. split; [|lra].
    assert (u <= exp 0); [|rewrite exp_0 in *; lra]. unfold u. pose proof PI_RGT_0.
    assert (A : 0 <= 2 / PI * z ^ 2 / v). { apply Rmult_le_pos; [|left; now apply Rinv_0_lt_compat]. apply Rmult_le_pos; [|apply pow2_ge_0]. left. apply Rdiv_lt_0_compat; lra. }
    replace (- (2 / PI) * z ^ 2 / v) with (- (2 / PI * z ^ 2 / v)) by (field; lra).
    destruct A as [A| <-]; [left; apply exp_increasing; lra|right; f_equal; ring].
  Qed.
  Lemma polya_incr z z' : 0 <= z -> z < z' -> polya z < polya z'.
  Proof.
    intros Hz H. unfold polya. apply sqrt_lt_1_alt. split.
    - pose proof (polya_range z) as [_ R1]. unfold polya in R1. destruct (Rle_dec 0 (1 - exp (- (2 / PI) * z ^ 2 / v))) as [|N]; auto.
      exfalso. apply N. pose proof PI_RGT_0. assert (A : 0 <= 2 / PI * z ^ 2 / v). { apply Rmult_le_pos; [|left; now apply Rinv_0_lt_compat]. apply Rmult_le_pos; [|apply pow2_ge_0]. left. apply Rdiv_lt_0_compat; lra. }
      replace (- (2 / PI) * z ^ 2 / v) with (- (2 / PI * z ^ 2 / v)) by (field; lra).
      assert (exp (- (2 / PI * z ^ 2 / v)) <= exp 0) by (destruct A as [A| <-]; [left; apply exp_increasing; lra|right; f_equal; ring]). rewrite exp_0 in *. lra.
    - assert (E : exp (- (2 / PI) * z' ^ 2 / v) < exp (- (2 / PI) * z ^ 2 / v)); [|lra]. apply exp_increasing. pose proof PI_RGT_0.
      assert (0 < 2 / PI) by (apply Rdiv_lt_0_compat; lra). assert (0 < / v) by now apply Rinv_0_lt_compat.
      assert (z ^ 2 < z' ^ 2) by nra. unfold Rdiv at 1 3. assert (2 / PI * (/ v * z ^ 2) < 2 / PI * (/ v * z' ^ 2)) by (apply Rmult_lt_compat_l; auto; apply Rmult_lt_compat_l; auto). lra.
  Qed.
  Lemma polya_even z : polya (- z) = polya z.
  Proof. unfold polya. do 4 f_equal. f_equal. ring. Qed.
  Lemma polya_0 : polya 0 = 0.
  Proof. unfold polya. replace (- (2 / PI) * 0 ^ 2 / v) with 0 by (field; pose proof PI_RGT_0; lra). rewrite exp_0, Rminus_eq_0. apply sqrt_0. Qed.

  Theorem gauss_cdf_shape : (forall x y, x < y -> gauss_cdf g x < gauss_cdf g y) /\ (forall x, 0 < gauss_cdf g x < 1) /\
    gauss_cdf g m = / 2 /\ forall d, gauss_cdf g (m + d) + gauss_cdf g (m - d) = 1.
  Proof.
    split; [|split; [|split]].
    - intros x y H. rewrite !gauss_cdf_R. destruct (Rlt_dec (x - m) 0) as [A|A], (Rlt_dec (y - m) 0) as [B|B]; try lra.
      + rewrite <- (polya_even (x - m)), <- (polya_even (y - m)). pose proof (polya_incr (- (y - m)) (- (x - m))). lra.
      + pose proof (polya_range (y - m)). assert (0 < polya (x - m)). { rewrite <- polya_even, <- polya_0. apply polya_incr; lra. } lra.
      + pose proof (polya_incr (x - m) (y - m)). lra.
    - intros x. rewrite gauss_cdf_R. pose proof (polya_range (x - m)). destruct (Rlt_dec (x - m) 0); lra.
    - rewrite gauss_cdf_R. replace (m - m) with 0 by ring. rewrite polya_0. destruct (Rlt_dec 0 0); lra.
    - intros d. rewrite !gauss_cdf_R. replace (m + d - m) with d by ring. replace (m - d - m) with (- d) by ring. rewrite polya_even.
      destruct (Rlt_dec d 0) as [A|A], (Rlt_dec (- d) 0) as [B|B]; try lra. assert (d = 0) by lra. subst d. rewrite polya_0. lra.
  Qed.
  (** Sampling: [mean + std_dev * n] is at most [x] iff the standard draw is at most the standardised [x]. *)
  Theorem gauss_sample_cdf n x : (gauss_sample g n <= x <-> n <= (x - m) / sqrt v) /\ gauss_cdf g x = gauss_cdf (gaussian_new 0 1) ((x - m) / sqrt v).
  Proof.
    split.
    - unfold gauss_sample. cbn. split; intros H.
      + apply (Rmult_le_reg_r (sqrt v)); auto. unfold Rdiv. rewrite Rmult_assoc, Rinv_l by lra. lra.
      + apply (Rmult_le_compat_r (sqrt v)) in H; [|lra]. unfold Rdiv in H. rewrite Rmult_assoc, Rinv_l in H by lra. lra.
    - unfold gauss_cdf. rewrite !nsignum_R. cbn. rewrite Rminus_0_r. pose proof PI_RGT_0.
      replace (- ((1 + 1) / PI) * ((x - m) / sqrt v) * ((x - m) / sqrt v) / 1) with (- ((1 + 1) / PI) * (x - m) * (x - m) / v).
      2:{ rewrite <- (sqrt_sqrt v) at 1 by lra. field. lra. }
      destruct (Rlt_dec (x - m) 0) as [A|A], (Rlt_dec ((x - m) / sqrt v) 0) as [B|B]; auto; exfalso.
      + apply B. apply (Rmult_lt_reg_r (sqrt v)); auto. unfold Rdiv. rewrite Rmult_assoc, Rinv_l; lra.
      + apply A. apply (Rmult_lt_compat_r (sqrt v)) in B; auto. unfold Rdiv in B. rewrite Rmult_assoc, Rinv_l in B; lra.
  Qed.
End Gaussian.
Theorem gauss_constructors (m s : R) : 0 <= s -> gaussian_from_std_dev m s = gaussian_new m (s * s).
Proof. intros H. unfold gaussian_from_std_dev, gaussian_new. cbn. now rewrite sqrt_square. Qed.
Theorem gauss_default_standard : gaussian_default = gaussian_new 0 1.
Proof. unfold gaussian_default, gaussian_new. cbn. now rewrite sqrt_1. Qed.
