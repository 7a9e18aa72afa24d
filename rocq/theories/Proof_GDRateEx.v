(** Cases for C129 and C130. *)
From Coq Require Import List Arith Lia Bool Reals Lra.
From Verif Require Import Base BaseLemmas Num NumFn Linalg LinalgR Euclid Spec_Calc CalcR MatR Model_Optim Spec_Optim Proof_Optim Proof_Optim2 Proof_OptimEx Model_Regression Spec_Regression
  Spec_GDRate Proof_GDRate.
Import ListNotations.
Local Open Scope R_scope.

(** The cosine: not convex, bounded below. *)
Definition wave (x : list R) : R := cos (nth 0 x 0).
Definition wave_grad (x : list R) : list R := [- sin (nth 0 x 0)].
Lemma sin_lip x y : x <= y -> -(y - x) <= sin y - sin x <= y - x.
Proof.
  intros [H| ->]; [|replace (sin y - sin y) with 0 by ring; lra].
  destruct (MVT_cor2 sin cos x y H) as (c & E & _); [intros; apply derivable_pt_lim_sin|].
  rewrite E. pose proof (COS_bound c). nra.
Qed.
Lemma cos_above x d : cos (x + d) <= cos x - sin x * d + / 2 * (d * d).
Proof.
  assert (M : forall a b, a < b -> exists c, (/ 2 * (b * b) - cos b) - (/ 2 * (a * a) - cos a) = (c + sin c) * (b - a) /\ a < c < b).
  { intros a b H. destruct (MVT_cor2 (fun t => / 2 * (t * t) - cos t) (fun t => t + sin t) a b H) as (c & E & Hc); [|eauto].
    intros c _. replace (c + sin c) with (/ 2 * (1 * c + c * 1) - (- sin c)) by field.
    apply (derivable_pt_lim_minus (fun t => / 2 * (t * t)) cos); [|apply derivable_pt_lim_cos].
    apply (derivable_pt_lim_scal (fun t => t * t)). apply (derivable_pt_lim_mult id id); apply derivable_pt_lim_id. }
  destruct (Rtotal_order d 0) as [H|[->|H]].
  - destruct (M (x + d) x) as (c & E & Hc); [lra|]. pose proof (sin_lip c x ltac:(lra)) as K. nra.
  - rewrite Rplus_0_r. lra.
  - destruct (M x (x + d)) as (c & E & Hc); [lra|]. pose proof (sin_lip x c ltac:(lra)) as K. nra.
Qed.
Lemma wave_smooth : smooth 1 wave wave_grad 1.
Proof.
  intros x Lx. split; [reflexivity|]. intros y Ly. destruct x as [|a [|]], y as [|b [|]]; try discriminate.
  unfold wave, wave_grad. cbn [vsub map2 nth]. rewrite !dot_cons, !dot_nil_l. cbn [nsub NumR].
  pose proof (cos_above a (b - a)) as K. replace (a + (b - a)) with b in K by ring. lra.
Qed.
Lemma wave_bounded : forall x, -1 <= wave x.
Proof. intros x. apply COS_bound. Qed.
Lemma wave_not_convex : ~ convex 1 wave wave_grad.
Proof.
  intros H. specialize (H [0] [PI] eq_refl eq_refl). unfold wave, wave_grad in H. cbn [vsub map2 nth] in H. rewrite !dot_cons, !dot_nil_l in H.
  rewrite cos_0, cos_PI, sin_0 in H. lra.
Qed.

Lemma strong_ex : strongly_convex 1 f_ex G_ex 1.
Proof.
  intros x y Lx Ly. destruct x as [|a [|]], y as [|b [|]]; try discriminate. unfold f_ex, G_ex, dist2. cbn. pose proof (pow2_ge_0 (b - a)). nra.
Qed.
Lemma lin_strong_ex : let X := Mat [[1]; [-1]] 1 in mwf X /\ (0 < nrows X)%nat /\ length [1; 0] = nrows X /\
  (forall x, In x (mrows X) -> 1 + sqnorm x <= 2) /\ 3 / 10 * 2 <= 1 /\ 0 < 1 /\
  (forall v, length v = S (mcols X) -> 1 * INR (nrows X) * sqnorm v <= sumR (nrows X) (fun i => affine v (nth i (mrows X) []) ^ 2)).
Proof.
  intros X. split; [repeat constructor|]. split; [cbn; lia|]. split; [reflexivity|]. split; [|split; [lra|split; [lra|]]].
  - intros x [<-|[<-|[]]]; unfold sqnorm; cbn; lra.
  - intros v Lv. destruct v as [|a [|b [|]]]; try discriminate. unfold sqnorm, affine. cbn. nra.
Qed.
