(** Every matrix has a singular value decomposition. *)
From Coq Require Import List Arith Reals Lra Lia Bool.
From Verif Require Import Base BaseLemmas Num Linalg LinalgR Spec_Calc CalcR Proof_KMeans MatR Model_GMM Spec_GMM Proof_GMM4 Model_PCA Spec_PCA Proof_EM Proof_EM2 Proof_Inverse.
Import ListNotations.
Local Open Scope R_scope.

Definition ip (n : nat) (u v : nat -> R) : R := sumR n (fun a => u a * v a).
Definition mv (n : nat) (A : nat -> nat -> R) (u : nat -> R) (a : nat) : R := sumR n (fun b => A a b * u b).
Lemma ip_comm n u v : ip n u v = ip n v u. Proof. apply sumR_ext. intros; ring. Qed.
Lemma ip_ext n u u' v v' : (forall a, (a < n)%nat -> u a = u' a) -> (forall a, (a < n)%nat -> v a = v' a) -> ip n u v = ip n u' v'.
Proof. intros H K. apply sumR_ext. intros a Ha. now rewrite H, K. Qed.
Lemma ip_scal n c u v : ip n (fun a => c * u a) v = c * ip n u v.
Proof. unfold ip. rewrite <- sumR_scal. apply sumR_ext. intros; ring. Qed.
Lemma ip_scal_r n c u v : ip n u (fun a => c * v a) = c * ip n u v.
Proof. unfold ip. rewrite <- sumR_scal. apply sumR_ext. intros; ring. Qed.
Lemma ip_plus n u v w : ip n (fun a => u a + v a) w = ip n u w + ip n v w.
Proof. unfold ip. rewrite <- sumR_plus. apply sumR_ext. intros; ring. Qed.
Lemma ip_ge0 n u : 0 <= ip n u u. Proof. apply sumR_ge0. intros. apply Rle_0_sqr. Qed.
Lemma ip_zero n u : ip n u u = 0 -> forall a, (a < n)%nat -> u a = 0.
Proof.
  intros H a Ha. assert (K : u a * u a <= ip n u u) by (apply (sumR_ge_term n (fun a => u a * u a)); auto; intros; apply Rle_0_sqr).
  apply Rsqr_0_uniq. unfold Rsqr. pose proof (Rle_0_sqr (u a)). unfold Rsqr in *. lra.
Qed.
Lemma ip_pos n u : (exists a, (a < n)%nat /\ u a <> 0) -> 0 < ip n u u.
Proof. intros (a & Ha & H). destruct (ip_ge0 n u) as [|E]; [assumption|]. exfalso. apply H. now apply (ip_zero n u). Qed.
Lemma qform_ip n A u : qform n A u = ip n u (mv n A u).
Proof. unfold qform, ip, mv. apply sumR_ext. intros a Ha. rewrite <- sumR_scal. apply sumR_ext. intros; ring. Qed.
Lemma mv_sym n A u v : sym n A -> ip n u (mv n A v) = ip n v (mv n A u).
Proof.
  intro S. unfold ip, mv. rewrite (sumR_ext n _ (fun a => sumR n (fun b => u a * A a b * v b))) by (intros; rewrite <- sumR_scal; apply sumR_ext; intros; ring).
  rewrite sumR_exch. apply sumR_ext. intros b Hb. rewrite <- sumR_scal. apply sumR_ext. intros a Ha. rewrite (S a b) by auto. ring.
Qed.
Lemma mv_scal n A c u a : mv n A (fun b => c * u b) a = c * mv n A u a.
Proof. unfold mv. rewrite <- sumR_scal. apply sumR_ext. intros; ring. Qed.
Lemma qform_scal n A c u : qform n A (fun b => c * u b) = c * c * qform n A u.
Proof. rewrite !qform_ip, ip_scal. rewrite (ip_ext n u u _ (fun a => c * mv n A u a)); auto using mv_scal. rewrite ip_scal_r. ring. Qed.
Lemma qform_line n A t u v : sym n A -> qform n A (fun a => v a + t * u a) = qform n A v + 2 * t * ip n v (mv n A u) + t * t * qform n A u.
Proof.
  intro S. rewrite !qform_ip. rewrite (ip_ext n _ (fun a => v a + t * u a) (mv n A (fun a => v a + t * u a)) (fun a => mv n A v a + t * mv n A u a)); auto.
  - rewrite ip_plus, ip_scal, !(ip_comm n _ (fun a => mv n A v a + t * mv n A u a)), !ip_plus, !ip_scal. rewrite (ip_comm n (mv n A v)), (ip_comm n (mv n A u) v), (ip_comm n (mv n A v) u), (ip_comm n (mv n A u) u).
    rewrite (mv_sym n A u v S). ring.
  - intros a Ha. unfold mv. rewrite <- sumR_scal, <- sumR_plus. apply sumR_ext. intros; ring.
Qed.
Lemma psd_cs n A u v : sym n A -> psdm n A -> ip n v (mv n A u) * ip n v (mv n A u) <= qform n A v * qform n A u.
Proof.
  intros S P. set (b := ip n v (mv n A u)). pose proof (fun t => eq_ind _ (fun x => 0 <= x) (P (fun a => v a + t * u a)) _ (qform_line n A t u v S)) as K. cbn beta in K. fold b in K.
  pose proof (P u : 0 <= qform n A u) as Pu. pose proof (P v : 0 <= qform n A v) as Pv. destruct Pu as [Pu|Pu].
  - specialize (K (- b / qform n A u)). set (q := qform n A u) in *. assert (E : qform n A v + 2 * (- b / q) * b + - b / q * (- b / q) * q = qform n A v - b * b / q) by (field; lra). rewrite E in K.
    apply (Rmult_le_reg_r (/ q)); [now apply Rinv_0_lt_compat|]. replace (qform n A v * q * / q) with (qform n A v) by (field; lra). unfold Rdiv in K. lra.
  - rewrite <- Pu in *. rewrite Rmult_0_r. destruct (Req_dec b 0) as [->|N]; [lra|]. exfalso. specialize (K (- (qform n A v + 1) / (2 * b))).
    assert (E : qform n A v + 2 * (- (qform n A v + 1) / (2 * b)) * b + - (qform n A v + 1) / (2 * b) * (- (qform n A v + 1) / (2 * b)) * 0 = - 1) by (field; exact N). rewrite E in K. lra.
Qed.
Lemma psd_null n A u : sym n A -> psdm n A -> qform n A u = 0 -> forall a, (a < n)%nat -> mv n A u a = 0.
Proof.
  intros S P H. apply ip_zero. pose proof (psd_cs n A u (mv n A u) S P) as K. rewrite H, Rmult_0_r in K. pose proof (ip_ge0 n (mv n A u)). nra.
Qed.
(** A bound on quadratic forms over unit vectors. *)
Lemma unit_entry n u a : ip n u u = 1 -> (a < n)%nat -> Rabs (u a) <= 1.
Proof.
  intros H Ha. assert (K : u a * u a <= 1) by (rewrite <- H; apply (sumR_ge_term n (fun a => u a * u a)); auto; intros; apply Rle_0_sqr). apply Rabs_le. nra.
Qed.
Definition size (n : nat) (A : nat -> nat -> R) : R := sumR n (fun a => sumR n (fun b => Rabs (A a b))).
Lemma qform_bound n A u : ip n u u = 1 -> qform n A u <= size n A.
Proof.
  intro H. unfold qform, size. apply sumR_le. intros a Ha. apply sumR_le. intros b Hb. eapply Rle_trans; [apply Rle_abs|]. rewrite !Rabs_mult.
  pose proof (unit_entry n u a H Ha). pose proof (unit_entry n u b H Hb). pose proof (Rabs_pos (u a)). pose proof (Rabs_pos (u b)). pose proof (Rabs_pos (A a b)).
  apply Rle_trans with (1 * Rabs (A a b) * 1); [|lra]. apply Rmult_le_compat; auto using Rmult_le_pos. apply Rmult_le_compat_r; auto.
Qed.
Lemma size_ge0 n A : 0 <= size n A.
Proof. apply sumR_ge0. intros. apply sumR_ge0. intros. apply Rabs_pos. Qed.
Definition unit_of (n : nat) (u : nat -> R) (a : nat) : R := / sqrt (ip n u u) * u a.
Lemma unit_of_unit n u : 0 < ip n u u -> ip n (unit_of n u) (unit_of n u) = 1.
Proof.
  intro H. unfold unit_of. rewrite ip_scal, ip_scal_r. assert (0 < sqrt (ip n u u)) by (now apply sqrt_lt_R0). pose proof (sqrt_sqrt (ip n u u) ltac:(lra)) as E.
  rewrite <- E at 3. field. lra.
Qed.

Lemma top_eigen n H : sym n H -> psdm n H -> ~ (forall a b, (a < n)%nat -> (b < n)%nat -> H a b = 0) ->
  exists mu x, 0 < mu /\ ip n x x = 1 /\ (forall a, (a < n)%nat -> mv n H x a = mu * x a) /\ forall u, qform n H u <= mu * ip n u u.
Proof.
  intros S P NZ.
  assert (Q : exists u, 0 < qform n H u).
  { apply Classical_Prop.NNPP. intro N. apply NZ. intros a b Ha Hb. assert (Z : qform n H (dlt b) = 0) by (apply Rle_antisym; [apply Rnot_lt_le; intro; apply N; eauto|apply P]).
    rewrite <- (psd_null n H _ S P Z a Ha). unfold mv. rewrite (sumR_ext n _ (fun c => dlt b c * H a c)) by (intros; ring). symmetry. now apply (sum_dlt n (fun c => H a c)). }
  destruct Q as (u0 & Q). assert (P0 : 0 < ip n u0 u0).
  { apply ip_pos. apply Classical_Prop.NNPP. intro N. assert (qform n H u0 = 0); [|lra]. apply qform_zero. intros a Ha. apply Classical_Prop.NNPP. intro. apply N. eauto. }
  set (E := fun s => exists u, ip n u u = 1 /\ s = qform n H u).
  destruct (completeness E) as (mu & U & L).
  { exists (size n H). intros s (u & Hu & ->). now apply qform_bound. }
  { exists (qform n H (unit_of n u0)). exists (unit_of n u0). split; [now apply unit_of_unit|reflexivity]. }
  assert (B : forall u, qform n H u <= mu * ip n u u).
  { intro u. destruct (ip_ge0 n u) as [K|K].
    - specialize (U (qform n H (unit_of n u)) (ex_intro _ _ (conj (unit_of_unit n u K) eq_refl))). unfold unit_of in U. rewrite qform_scal in U.
      assert (0 < sqrt (ip n u u)) by (now apply sqrt_lt_R0). pose proof (sqrt_sqrt (ip n u u) ltac:(lra)) as Es. set (s := sqrt (ip n u u)) in *. rewrite <- Es.
      apply (Rmult_le_reg_l (/ s * / s)); [apply Rmult_lt_0_compat; now apply Rinv_0_lt_compat|]. eapply Rle_trans; [exact U|]. right. field. lra.
    - rewrite <- K, qform_zero; [lra|]. now apply ip_zero. }
  assert (Pm : 0 < mu) by (specialize (B u0); apply Rnot_le_lt; intro; nra).
  set (C := fun a b => mu * dlt a b - H a b).
  assert (EC : forall u a, (a < n)%nat -> mv n C u a = mu * u a - mv n H u a).
  { intros u a Ha. unfold mv, C. rewrite (sumR_ext n _ (fun b => mu * (dlt a b * u b) - H a b * u b)) by (intros; ring). rewrite sumR_minus, sumR_scal, sum_dlt by auto. reflexivity. }
  assert (QC : forall u, qform n C u = mu * ip n u u - qform n H u).
  { intro u. rewrite !qform_ip. rewrite (ip_ext n u u (mv n C u) (fun a => mu * u a + -1 * mv n H u a)); auto; [|intros; rewrite EC by auto; ring].
    rewrite (ip_comm n u (fun a => mu * u a + -1 * mv n H u a)), ip_plus, !ip_scal, (ip_comm n (mv n H u) u). ring. }
  assert (SC : sym n C) by (intros a b Ha Hb; unfold C, dlt; rewrite (S a b), (Nat.eqb_sym a b) by auto; reflexivity).
  assert (PC : psdm n C) by (intro u; change (0 <= qform n C u); rewrite QC; specialize (B u); lra).
  assert (NI : ~ inj n C).
  { intro I. pose proof (inj_inverse n C I) as RI. set (G := ginv n C) in *. set (K := 1 + size n G). pose proof (size_ge0 n G). 
    assert (W : forall u, ip n u u = 1 -> qform n H u <= mu - / K).
    { intros u Hu. assert (EM : forall a, (a < n)%nat -> mv n C (mv n G u) a = u a).
      { intros a Ha. unfold mv. rewrite (sumR_ext n _ (fun b => sumR n (fun c => C a b * G b c * u c))) by (intros; rewrite <- sumR_scal; apply sumR_ext; intros; ring).
        rewrite sumR_exch. rewrite (sumR_ext n _ (fun c => dlt a c * u c)); [now apply sum_dlt|]. intros c Hc. rewrite sumR_scal_r. now rewrite RI. }
      pose proof (psd_cs n C (mv n G u) u SC PC) as CS. rewrite (ip_ext n u u _ u) in CS by auto. rewrite Hu in CS.
      assert (E2 : qform n C (mv n G u) = qform n G u) by (rewrite !qform_ip, (ip_ext n (mv n G u) (mv n G u) _ u) by auto; apply ip_comm). rewrite E2, QC, Hu in CS.
      pose proof (qform_bound n G u Hu). pose proof (PC u) as P1. change (0 <= qform n C u) in P1. rewrite QC, Hu in P1.
      assert (1 <= (mu * 1 - qform n H u) * K) by (unfold K; nra). assert (0 < K) by (unfold K; lra).
      apply Rmult_le_reg_r with K; [assumption|]. rewrite Rmult_minus_distr_r, Rinv_l by lra. lra. }
    assert (0 < / K) by (apply Rinv_0_lt_compat; unfold K; lra). specialize (L (mu - / K)). assert (mu <= mu - / K); [|lra]. apply L. intros s (u & Hu & ->). auto. }
  apply Classical_Pred_Type.not_all_ex_not in NI. destruct NI as (x & NI). apply Classical_Prop.imply_to_and in NI. destruct NI as (ZX & NX). apply Classical_Pred_Type.not_all_ex_not in NX. destruct NX as (j & NX). apply Classical_Prop.imply_to_and in NX.
  assert (PX : 0 < ip n x x) by (apply ip_pos; eauto). exists mu, (unit_of n x). split; [exact Pm|]. split; [now apply unit_of_unit|]. split; [|exact B].
  intros a Ha. unfold unit_of. rewrite mv_scal. specialize (ZX a Ha). change (mv n C x a = 0) in ZX. rewrite EC in ZX by auto. replace (mv n H x a) with (mu * x a) by lra. ring.
Qed.

(** ** Orthonormal sets *)
Lemma orth_few n p x : orthonormal n p x -> (p <= n)%nat.
Proof.
  intro H. destruct (le_lt_dec p n) as [|L]; [assumption|]. destruct (underdetermined n p x L) as (u & (j & Hj & N) & Z). exfalso. apply N.
  rewrite <- (sum_dlt p u j Hj). rewrite (sumR_ext p _ (fun k => sumR n (fun a => x a j * (x a k * u k)))).
  - rewrite sumR_exch. apply sumR_zero. intros a Ha. rewrite sumR_scal, Z by auto. ring.
  - intros k Hk. transitivity (sumR n (fun a => x a j * x a k) * u k); [rewrite H by auto; reflexivity|]. rewrite <- sumR_scal_r. apply sumR_ext. intros; ring.
Qed.
Definition add_vec (p : nat) (x : nat -> nat -> R) (y : nat -> R) (a i : nat) : R := if (i =? p)%nat then y a else x a i.
Lemma add_old p x y a i : (i < p)%nat -> add_vec p x y a i = x a i.
Proof. intro H. unfold add_vec. destruct (Nat.eqb_spec i p); [lia|reflexivity]. Qed.
Lemma add_new p x y a : add_vec p x y a p = y a.
Proof. unfold add_vec. now rewrite Nat.eqb_refl. Qed.
Lemma orth_add n p x y : orthonormal n p x -> ip n y y = 1 -> (forall i, (i < p)%nat -> ip n (fun a => x a i) y = 0) -> orthonormal n (S p) (add_vec p x y).
Proof.
  intros H U O a b Ha Hb. destruct (Nat.eq_dec a p) as [->|Na], (Nat.eq_dec b p) as [->|Nb].
  - rewrite Nat.eqb_refl. rewrite (sumR_ext n _ (fun k => y k * y k)) by (intros; now rewrite add_new). exact U.
  - destruct (Nat.eqb_spec p b); [lia|]. rewrite (sumR_ext n _ (fun k => x k b * y k)) by (intros; rewrite add_new, add_old by lia; ring). apply O. lia.
  - destruct (Nat.eqb_spec a p); [lia|]. rewrite (sumR_ext n _ (fun k => x k a * y k)) by (intros; rewrite add_new, add_old by lia; ring). apply O. lia.
  - rewrite (sumR_ext n _ (fun k => x k a * x k b)) by (intros; rewrite !add_old by lia; ring). apply H; lia.
Qed.
Lemma orth_complete n p x q : orthonormal n p x -> (p <= q <= n)%nat -> exists x', (forall a i, (i < p)%nat -> x' a i = x a i) /\ orthonormal n q x'.
Proof.
  intros H [L1 L2]. revert L2. induction L1 as [|q L1 IH]; intro L2; [exists x; auto|]. destruct (IH ltac:(lia)) as (x' & E & H').
  destruct (underdetermined q n (fun i a => x' a i) ltac:(lia)) as (u & N & Z). pose proof (ip_pos n u N) as P.
  exists (add_vec q x' (unit_of n u)). split; [intros a i Hi; rewrite add_old by lia; auto|]. apply orth_add; auto; [now apply unit_of_unit|].
  intros i Hi. unfold unit_of. rewrite ip_scal_r. unfold ip at 2. rewrite Z by auto. ring.
Qed.

(** ** Spectral decomposition by deflation *)
Definition rank1 (p : nat) (mu : nat -> R) (x : nat -> nat -> R) (a b : nat) : R := sumR p (fun i => mu i * (x a i * x b i)).
Lemma deflate n G : forall m p x mu H, orthonormal n p x -> (forall i, (i < p)%nat -> 0 < mu i) -> (forall i j, (i <= j < p)%nat -> mu j <= mu i) ->
  (forall a b, (a < n)%nat -> (b < n)%nat -> G a b = rank1 p mu x a b + H a b) -> sym n H -> psdm n H -> (forall i, (i < p)%nat -> forall a, (a < n)%nat -> mv n H (fun a => x a i) a = 0) ->
  (forall i u, (i < p)%nat -> qform n H u <= mu i * ip n u u) -> (n < p + m)%nat ->
  exists p' x' mu', orthonormal n p' x' /\ (forall i, (i < p')%nat -> 0 < mu' i) /\ (forall i j, (i <= j < p')%nat -> mu' j <= mu' i) /\
    forall a b, (a < n)%nat -> (b < n)%nat -> G a b = rank1 p' mu' x' a b.
Proof.
  induction m as [|m IH]; intros p x mu H O Pm Dm E S P Z B Hf; [pose proof (orth_few n p x O); lia|].
  destruct (Classical_Prop.classic (forall a b, (a < n)%nat -> (b < n)%nat -> H a b = 0)) as [H0|H0].
  { exists p, x, mu. repeat split; auto. intros a b Ha Hb. rewrite E, H0 by auto. ring. }
  destruct (top_eigen n H S P H0) as (nu & y & Pn & Uy & Ey & By).
  assert (Oy : forall i, (i < p)%nat -> ip n (fun a => x a i) y = 0).
  { intros i Hi. apply (Rmult_eq_reg_l nu); [|lra]. rewrite <- ip_scal_r. rewrite <- (ip_ext n (fun a => x a i) (fun a => x a i) (mv n H y)) by auto. rewrite (mv_sym n H _ y S). rewrite Rmult_0_r.
    apply sumR_zero. intros a Ha. rewrite Z by auto. ring. }
  assert (Qy : qform n H y = nu) by (rewrite qform_ip, (ip_ext n y y _ (fun a => nu * y a)), ip_scal_r, Uy by auto; ring).
  set (mu' := fun i => if (i =? p)%nat then nu else mu i).
  assert (Mo : forall i, (i < p)%nat -> mu' i = mu i) by (intros i Hi; unfold mu'; destruct (Nat.eqb_spec i p); [lia|reflexivity]).
  assert (Mn : mu' p = nu) by (unfold mu'; now rewrite Nat.eqb_refl).
  set (H' := fun a b => H a b - nu * (y a * y b)).
  assert (MV : forall u a, mv n H' u a = mv n H u a - nu * y a * ip n y u).
  { intros u a. unfold mv, H', ip. rewrite <- sumR_scal, <- sumR_minus. apply sumR_ext. intros; ring. }
  assert (QH : forall u, qform n H' u = qform n H u - nu * (ip n u y * ip n u y)).
  { intro u. rewrite !qform_ip. rewrite (ip_ext n u u (mv n H' u) (fun a => mv n H u a + - (nu * ip n y u) * y a)); auto; [|intros; rewrite MV; ring].
    rewrite (ip_comm n u (fun a => mv n H u a + - (nu * ip n y u) * y a)), ip_plus, ip_scal, (ip_comm n (mv n H u) u), (ip_comm n y u). ring. }
  assert (NU : forall i, (i < p)%nat -> nu <= mu i) by (intros i Hi; specialize (B i y Hi); rewrite Qy, Uy in B; lra).
  apply (IH (Datatypes.S p) (add_vec p x y) mu' H').
  - now apply orth_add.
  - intros i Hi. destruct (Nat.eq_dec i p) as [->|N]; [rewrite Mn; exact Pn|]. rewrite Mo by lia. apply Pm. lia.
  - intros i j Hij. destruct (Nat.eq_dec j p) as [->|Nj].
    + rewrite Mn. destruct (Nat.eq_dec i p) as [->|Ni]; [rewrite Mn; lra|]. rewrite Mo by lia. apply NU. lia.
    + rewrite !Mo by lia. apply Dm. lia.
  - intros a b Ha Hb. unfold rank1. cbn [sumR]. rewrite Mn, !add_new. rewrite (sumR_ext p _ (fun i => mu i * (x a i * x b i))) by (intros; rewrite Mo, !add_old by auto; reflexivity). rewrite E by auto. unfold H', rank1. ring.
  - intros a b Ha Hb. unfold H'. rewrite (S a b) by auto. ring.
  - intro u. rewrite QH. pose proof (psd_cs n H y u S P) as CS. rewrite (ip_ext n u u _ (fun a => nu * y a)) in CS by auto. rewrite ip_scal_r, Qy in CS.
    assert (nu * (nu * (ip n u y * ip n u y)) <= nu * qform n H u) by lra. apply Rmult_le_reg_l in H1; [lra|exact Pn].
  - intros i Hi a Ha. destruct (Nat.eq_dec i p) as [->|N].
    + transitivity (mv n H' y a); [apply sumR_ext; intros; now rewrite add_new|]. rewrite MV, Ey, Uy by auto. ring.
    + transitivity (mv n H' (fun a => x a i) a); [apply sumR_ext; intros; rewrite add_old by lia; reflexivity|]. rewrite MV, Z by (auto; lia). rewrite (ip_comm n y), Oy by lia. ring.
  - intros i u Hi. rewrite QH. assert (0 <= nu * (ip n u y * ip n u y)) by (apply Rmult_le_pos; [lra|apply Rle_0_sqr]).
    destruct (Nat.eq_dec i p) as [->|N]; [rewrite Mn; specialize (By u); lra|]. rewrite Mo by lia. specialize (B i u ltac:(lia)). lra.
  - lia.
Qed.
Theorem spectral n G : sym n G -> psdm n G -> exists p x mu, orthonormal n p x /\ (forall i, (i < p)%nat -> 0 < mu i) /\ (forall i j, (i <= j < p)%nat -> mu j <= mu i) /\
    forall a b, (a < n)%nat -> (b < n)%nat -> G a b = rank1 p mu x a b.
Proof.
  intros S P. apply (deflate n G (Datatypes.S n) 0 (fun _ _ => 0) (fun _ => 0) G); auto; try (intros; lia).
  - intros a b Ha. lia.
  - intros. unfold rank1. cbn. ring.
Qed.

Theorem svd_exists r c A : exists V sigma, is_svd r c (Nat.min r c) A V sigma.
Proof.
  set (G := fun a b => sumR r (fun i => A i a * A i b)).
  assert (QG : forall u, qform c G u = sumR r (fun i => sumR c (fun a => A i a * u a) * sumR c (fun a => A i a * u a))).
  { intro u. unfold qform, G. rewrite (sumR_ext c _ (fun a => sumR r (fun i => A i a * u a * sumR c (fun b => A i b * u b)))).
    - rewrite sumR_exch. apply sumR_ext. intros i Hi. apply sumR_scal_r.
    - intros a Ha. rewrite (sumR_ext c _ (fun b => sumR r (fun i => A i a * u a * (A i b * u b)))) by (intros; rewrite <- sumR_scal, <- sumR_scal_r; apply sumR_ext; intros; ring).
      rewrite sumR_exch. apply sumR_ext. intros i Hi. apply sumR_scal. }
  assert (S : sym c G) by (intros a b _ _; apply sumR_ext; intros; ring).
  assert (P : psdm c G) by (intro u; rewrite QG; apply sumR_ge0; intros; apply Rle_0_sqr).
  destruct (spectral c G S P) as (p & x & mu & O & Pm & Dm & E).
  assert (GX : forall k a, (k < p)%nat -> (a < c)%nat -> sumR c (fun b => G a b * x b k) = mu k * x a k).
  { intros k a Hk Ha. rewrite (sumR_ext c _ (fun b => sumR p (fun l => mu l * x a l * (x b l * x b k)))).
    - rewrite sumR_exch. rewrite (sumR_ext p _ (fun l => dlt k l * (mu l * x a l))); [now apply (sum_dlt p (fun l => mu l * x a l))|].
      intros l Hl. rewrite sumR_scal, O by auto. unfold dlt. rewrite (Nat.eqb_sym l k). ring.
    - intros b Hb. rewrite E by auto. unfold rank1. rewrite <- sumR_scal_r. apply sumR_ext. intros; ring. }
  set (w := fun i k => sumR c (fun a => A i a * x a k)).
  assert (WW : forall j k, (j < p)%nat -> (k < p)%nat -> sumR r (fun i => w i j * w i k) = if (j =? k)%nat then mu k else 0).
  { intros j k Hj Hk. rewrite (sumR_ext r _ (fun i => sumR c (fun a => x a j * sumR c (fun b => A i a * A i b * x b k)))).
    - rewrite sumR_exch. rewrite (sumR_ext c _ (fun a => mu k * (x a j * x a k))).
      + rewrite sumR_scal, O by auto. destruct (j =? k)%nat; ring.
      + intros a Ha. rewrite sumR_scal, sumR_exch. rewrite (sumR_ext c _ (fun b => G a b * x b k)) by (intros; apply sumR_scal_r). rewrite GX by auto. ring.
    - intros i Hi. unfold w. rewrite <- sumR_scal_r. apply sumR_ext. intros a Ha. rewrite <- !sumR_scal. apply sumR_ext. intros; ring. }
  set (U0 := fun i k => w i k / sqrt (mu k)).
  assert (SP : forall k, (k < p)%nat -> 0 < sqrt (mu k)) by (intros; apply sqrt_lt_R0; auto).
  assert (OU : orthonormal r p U0).
  { intros j k Hj Hk. unfold U0. rewrite (sumR_ext r _ (fun i => w i j * w i k * (/ sqrt (mu j) * / sqrt (mu k)))) by (intros; unfold Rdiv; ring). rewrite sumR_scal_r, WW by auto.
    destruct (Nat.eqb_spec j k) as [->|]; [|ring]. pose proof (SP k Hk). pose proof (sqrt_sqrt (mu k) ltac:(left; auto)) as Es. rewrite <- Es at 1. field. lra. }
  pose proof (orth_few c p x O) as L1. pose proof (orth_few r p U0 OU) as L2.
  destruct (orth_complete c p x (Nat.min r c) O ltac:(lia)) as (V & EV & OV). destruct (orth_complete r p U0 (Nat.min r c) OU ltac:(lia)) as (U & EU & OU').
  set (sg := fun k => if (k <? p)%nat then sqrt (mu k) else 0).
  assert (S1 : forall k, (k < p)%nat -> sg k = sqrt (mu k)) by (intros k Hk; unfold sg; destruct (Nat.ltb_spec k p); [reflexivity|lia]).
  assert (S0 : forall k, (p <= k)%nat -> sg k = 0) by (intros k Hk; unfold sg; destruct (Nat.ltb_spec k p); [lia|reflexivity]).
  exists V, sg, U. split; [exact OU'|]. split; [exact OV|]. split; [|split].
  - intros j Hj. unfold sg. destruct (j <? p)%nat; [apply sqrt_pos|lra].
  - intros i j Hij. destruct (le_lt_dec p j) as [K|K].
    + rewrite S0 by auto. unfold sg. destruct (i <? p)%nat; [apply sqrt_pos|lra].
    + rewrite !S1 by lia. apply sqrt_le_1; try (left; apply Pm; lia). apply Dm. lia.
  - intros i j Hi Hj. assert (T : sumR (Nat.min r c) (fun k => U i k * sg k * V j k) = sumR p (fun k => w i k * x j k)).
    { transitivity (sumR p (fun k => U i k * sg k * V j k)).
      - assert (L : (p <= Nat.min r c)%nat) by lia. clear -L S0. induction L as [|q L IH]; [reflexivity|]. cbn [sumR]. rewrite IH, S0 by auto. ring.
      - apply sumR_ext. intros k Hk. rewrite EU, EV, S1 by auto. unfold U0. field. apply Rgt_not_eq, SP. exact Hk. }
    rewrite T. set (z := fun a => dlt j a - sumR p (fun k => x a k * x j k)).
    assert (ZG : forall a, (a < c)%nat -> sumR c (fun b => G a b * z b) = 0).
    { intros a Ha. unfold z. rewrite (sumR_ext c _ (fun b => dlt j b * G a b - sumR p (fun k => G a b * x b k * x j k))) by (intros b Hb; rewrite Rmult_minus_distr_l, <- sumR_scal; f_equal; [ring|apply sumR_ext; intros; ring]).
      rewrite sumR_minus, (sum_dlt c (fun b => G a b)) by auto. rewrite sumR_exch. rewrite (sumR_ext p _ (fun k => mu k * (x a k * x j k))) by (intros k Hk; rewrite sumR_scal_r, GX by auto; ring).
      rewrite E by auto. unfold rank1. ring. }
    assert (ZQ : qform c G z = 0).
    { unfold qform. apply sumR_zero. intros a Ha. rewrite (sumR_ext c _ (fun b => z a * (G a b * z b))) by (intros; ring). rewrite sumR_scal, ZG by auto. ring. }
    rewrite QG in ZQ. pose proof (ip_zero r (fun i => sumR c (fun a => A i a * z a)) ZQ i Hi) as ZI. cbn beta in ZI.
    rewrite (sumR_ext c _ (fun a => dlt j a * A i a - sumR p (fun k => A i a * x a k * x j k))) in ZI by (intros a Ha; unfold z; rewrite Rmult_minus_distr_l, <- sumR_scal; f_equal; [ring|apply sumR_ext; intros; ring]).
    rewrite sumR_minus, (sum_dlt c (fun a => A i a)) in ZI by auto. rewrite sumR_exch in ZI. rewrite (sumR_ext p _ (fun k => w i k * x j k)) in ZI by (intros; apply sumR_scal_r). lra.
Qed.
