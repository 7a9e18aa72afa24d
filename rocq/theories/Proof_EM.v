(** Cholesky factors, the determinant-trace inequality and Jensen's inequality, for [Proof_EM2]. *)
From Coq Require Import List Arith Lia Bool Reals Lra.
From Verif Require Import Base BaseLemmas Num NumFn Linalg LinalgR Spec_Calc CalcR MatR Proof_KMeans Proof_NNet2 Model_GMM Spec_GMM.
Import ListNotations.
Local Open Scope R_scope.

Definition sym (n : nat) (A : nat -> nat -> R) : Prop := forall i j, (i < n)%nat -> (j < n)%nat -> A i j = A j i.
Definition qform (n : nat) (A : nat -> nat -> R) (u : nat -> R) : R := sumR n (fun i => sumR n (fun j => u i * A i j * u j)).
Definition psdm (n : nat) (A : nat -> nat -> R) : Prop := forall u, 0 <= qform n A u.
Definition lower (n : nat) (L : nat -> nat -> R) : Prop := forall i j, (i < j)%nat -> (j < n)%nat -> L i j = 0.

(** [Q(t e0 + v)] as a polynomial in [t]. *)
Lemma qform_split n A u : sym (S n) A ->
  qform (S n) A u = A 0%nat 0%nat * (u 0%nat * u 0%nat) + 2 * u 0%nat * sumR n (fun j => A 0%nat (S j) * u (S j)) + qform n (fun i j => A (S i) (S j)) (fun i => u (S i)).
Proof.
  intros HS. unfold qform. rewrite (sumR_S_l n). rewrite (sumR_S_l n (fun j => u 0%nat * A 0%nat j * u j)).
  rewrite (sumR_ext n (fun i => u 0%nat * A 0%nat (S i) * u (S i)) (fun i => u 0%nat * (A 0%nat (S i) * u (S i)))) by (intros; ring).
  rewrite (sumR_ext n (fun i => sumR (S n) (fun j => u (S i) * A (S i) j * u j))
    (fun i => u 0%nat * (A 0%nat (S i) * u (S i)) + sumR n (fun j => u (S i) * A (S i) (S j) * u (S j)))).
  2:{ intros i Hi. rewrite (sumR_S_l n). rewrite (HS (S i) 0%nat) by lia. ring. }
  rewrite sumR_plus, !sumR_scal. ring.
Qed.
Lemma qform_outer n (b u : nat -> R) c A : qform n (fun i j => A i j - b i * b j * c) u = qform n A u - c * (sumR n (fun j => b j * u j) * sumR n (fun j => b j * u j)).
Proof.
  unfold qform. rewrite <- (sumR_scal_r n (sumR n (fun j => b j * u j)) (fun j => b j * u j)), <- sumR_scal, <- sumR_minus. apply sumR_ext. intros i Hi.
  rewrite <- sumR_scal, <- sumR_scal, <- sumR_minus. apply sumR_ext. intros j Hj. ring.
Qed.
Lemma quad_bound a b c : (forall t, 0 <= a * (t * t) + 2 * t * b + c) -> 0 <= a /\ (a = 0 -> b = 0) /\ 0 <= c.
Proof.
  intros H. assert (0 <= c) by (specialize (H 0); lra).
  assert (E : a = 0 -> b = 0).
  { intros ->. destruct (Req_dec b 0); auto. exfalso. specialize (H (- (c + 1) / (2 * b))).
    replace (0 * _ + 2 * (- (c + 1) / (2 * b)) * b + c) with (- 1) in H by (field; lra). lra. }
  split; auto. destruct (Rle_lt_dec 0 a); auto. exfalso.
  set (t := (1 + c + Rabs b) / - a + 1). assert (Ht : 1 <= t).
  { unfold t. assert (0 <= (1 + c + Rabs b) / - a). { apply Rmult_le_pos; [pose proof (Rabs_pos b); lra|]. left. apply Rinv_0_lt_compat. lra. } lra. }
  assert (H1 := H t). assert (H2 := H (- t)). assert (a * t <= - (1 + c + Rabs b)). { unfold t. replace (a * ((1 + c + Rabs b) / - a + 1)) with (- (1 + c + Rabs b) + a) by (field; lra). lra. }
  pose proof (Rabs_pos b). assert (a * (t * t) <= - (1 + c + Rabs b) * t) by nra. nra.
Qed.

Lemma cholesky n : forall A, sym n A -> psdm n A ->
  exists L, lower n L /\ forall i j, (i < n)%nat -> (j < n)%nat -> A i j = sumR n (fun k => L i k * L j k).
Proof.
  induction n as [|n IH]; intros A HS HP.
  - exists (fun _ _ => 0). split; [intros i j; lia|intros i j; lia].
  - set (a := A 0%nat 0%nat). set (b := fun j => A 0%nat (S j)).
    assert (HB : forall u, 0 <= a /\ (a = 0 -> sumR n (fun j => b j * u j) = 0) /\ 0 <= qform n (fun i j => A (S i) (S j)) u).
    { intros u. apply quad_bound. intros t. specialize (HP (fun i => match i with O => t | S i => u i end)). rewrite qform_split in HP by auto. cbn in HP. exact HP. }
    assert (Ha : 0 <= a) by (apply (HB (fun _ => 0))).
    assert (Hb : a = 0 -> forall j, (j < n)%nat -> b j = 0).
    { intros E j Hj. destruct (HB (fun l => if (j =? l)%nat then 1 else 0)) as (_ & K & _). specialize (K E).
      rewrite (sumR_single n _ j) in K; auto. - rewrite Nat.eqb_refl in K. lra. - intros i Hi Hij. destruct (Nat.eqb_spec j i); [lia|ring]. }
    set (c := / a). (* [/ 0] is only used where [b] is zero *)
    destruct (IH (fun i j => A (S i) (S j) - b i * b j * c)) as (L & HL & EL).
    { intros i j Hi Hj. rewrite (HS (S i) (S j)) by lia. ring. }
    { intros u. rewrite qform_outer. destruct (Req_dec a 0) as [E|E].
      - destruct (HB u) as (_ & K & K2). rewrite (K E). lra.
      - set (s := sumR n (fun j => b j * u j)). specialize (HP (fun i => match i with O => - s / a | S i => u i end)). rewrite qform_split in HP by auto. cbn beta iota in HP.
        change (sumR n (fun j => A 0%nat (S j) * u j)) with s in HP. fold a in HP.
        replace (a * (- s / a * (- s / a)) + 2 * (- s / a) * s) with (- (c * (s * s))) in HP by (unfold c; field; auto).
        change (fun i => u i) with u in HP. lra. }
    exists (fun i j => match i, j with O, O => sqrt a | O, S _ => 0 | S i, O => b i / sqrt a | S i, S j => L i j end). split.
    + intros [|i] [|j] H1 H2; try lia; auto. apply HL; lia.
    + intros i j Hi Hj. rewrite sumR_S_l. destruct i as [|i], j as [|j].
      * rewrite sumR_zero by (intros; ring). rewrite sqrt_sqrt by auto. fold a. ring.
      * rewrite sumR_zero by (intros; ring). fold (b j). destruct (Req_dec a 0) as [E|E]; [rewrite (Hb E j) by lia; unfold Rdiv; ring|].
        assert (0 < sqrt a) by (apply sqrt_lt_R0; lra). field. lra.
      * rewrite sumR_zero by (intros; ring). rewrite (HS (S i) 0%nat) by lia. fold (b i). destruct (Req_dec a 0) as [E|E]; [rewrite (Hb E i) by lia; unfold Rdiv; ring|].
        assert (0 < sqrt a) by (apply sqrt_lt_R0; lra). field. lra.
      * rewrite <- EL by lia. destruct (Req_dec a 0) as [E|E]; [rewrite (Hb E i), (Hb E j) by lia; unfold Rdiv; ring|].
        assert (0 < sqrt a) by (apply sqrt_lt_R0; lra). unfold c. replace (b i / sqrt a * (b j / sqrt a)) with (b i * b j * / (sqrt a * sqrt a)) by (field; lra). rewrite sqrt_sqrt by auto. ring.
Qed.

Lemma ln_le_sub1 x : 0 < x -> ln x <= x - 1.
Proof. intros H. destruct (Req_dec (ln x) 0) as [E|E]. - rewrite E. assert (x = 1) by (rewrite <- (exp_ln x H), E; apply exp_0). lra. - pose proof (exp_ineq1 (ln x) E). rewrite exp_ln in * by auto. lra. Qed.
Lemma prodR_sq n f : prodR n f * prodR n f = prodR n (fun i => f i * f i).
Proof. induction n as [|n IH]; cbn; [ring|]. rewrite <- IH. ring. Qed.
Lemma prodR_pos_all n f : (forall i, (i < n)%nat -> 0 <= f i) -> 0 < prodR n f -> forall i, (i < n)%nat -> 0 < f i.
Proof.
  induction n as [|n IH]; intros H P i Hi; [lia|]. cbn in P. assert (0 <= prodR n f).
  { clear -H. induction n as [|n IH]; cbn; [lra|]. apply Rmult_le_pos; [apply IH; auto|auto]. }
  assert (0 < f n). { destruct (H n ltac:(lia)) as [|E]; auto. rewrite <- E in P. lra. }
  assert (0 < prodR n f). { destruct H0 as [|E]; auto. rewrite <- E in P. lra. }
  destruct (Nat.eq_dec i n) as [->|]; auto. apply IH; auto. lia.
Qed.
Lemma ln_prodR n f : (forall i, (i < n)%nat -> 0 < f i) -> 0 < prodR n f /\ ln (prodR n f) = sumR n (fun i => ln (f i)).
Proof.
  induction n as [|n IH]; intros H; cbn; [split; [lra|apply ln_1]|]. destruct IH as (P & E); auto. split; [apply Rmult_lt_0_compat; auto|].
  rewrite ln_mult by auto. now rewrite E.
Qed.

Section Det.
  Variables (d : nat) (D : (nat -> nat -> R) -> R).
  Hypothesis HD : determinant d D.
  Lemma det_gram L A : lower d L -> (forall i j, (i < d)%nat -> (j < d)%nat -> A i j = sumR d (fun k => L i k * L j k)) ->
    D A = prodR d (fun i => L i i * L i i).
  Proof.
    intros HL E. destruct HD as (X & M & T & U). rewrite (X A (mprod d L (fun i j => L j i))) by exact E.
    rewrite M, (T L), (U L HL). apply prodR_sq.
  Qed.
  (** The determinant-trace inequality. *)
  Lemma ln_det_trace A : sym d A -> psdm d A -> 0 < D A -> ln (D A) <= sumR d (fun i => A i i) - INR d.
  Proof.
    intros HS HP H. destruct (cholesky d A HS HP) as (L & HL & E). rewrite (det_gram L A HL E) in *.
    assert (P : forall i, (i < d)%nat -> 0 < L i i * L i i) by (apply prodR_pos_all; auto; intros; nra).
    destruct (ln_prodR d _ P) as (_ & ->). replace (INR d) with (sumR d (fun _ => 1)) by (rewrite sumR_const; ring). rewrite <- sumR_minus.
    apply sumR_le. intros i Hi. pose proof (ln_le_sub1 _ (P i Hi)). rewrite E by auto.
    pose proof (sumR_ge_term d (fun k => L i k * L i k) i ltac:(intros; nra) Hi). cbn in *. lra.
  Qed.

  Definition is_inv (C P : nat -> nat -> R) : Prop := forall a b, (a < d)%nat -> (b < d)%nat -> sumR d (fun k => C a k * P k b) = if (a =? b)%nat then 1 else 0.
  Definition mv (A : nat -> nat -> R) (u : nat -> R) (i : nat) : R := sumR d (fun j => A i j * u j).
  Lemma sum_delta (f : nat -> R) a : (a < d)%nat -> sumR d (fun k => (if (a =? k)%nat then 1 else 0) * f k) = f a.
  Proof. intros Ha. rewrite <- (sumR_pick d f a Ha). apply sumR_ext. intros k Hk. destruct (a =? k)%nat; ring. Qed.
  Lemma inv_sym C P : sym d C -> is_inv C P -> sym d P.
  Proof.
    intros HS HI i j Hi Hj.
    (* P^T = P^T C P = P *)
    assert (K : forall i j, (i < d)%nat -> (j < d)%nat -> sumR d (fun k => P k i * sumR d (fun l => C k l * P l j)) = P j i).
    { intros a b Ha Hb. rewrite (sumR_ext d _ (fun k => (if (b =? k)%nat then 1 else 0) * P k a)). - apply (sum_delta (fun k => P k a)); auto.
      - intros k Hk. rewrite HI by auto. rewrite (Nat.eqb_sym b k). ring. }
    rewrite <- (K j i) by auto. rewrite <- (K i j) by auto.
    rewrite (sumR_ext d (fun k => P k i * _) (fun k => sumR d (fun l => P k i * C k l * P l j))) by (intros k Hk; rewrite <- sumR_scal; apply sumR_ext; intros; ring).
    rewrite (sumR_exch d d). apply sumR_ext. intros l Hl. rewrite <- sumR_scal. apply sumR_ext. intros k Hk. rewrite (HS k l) by auto. ring.
  Qed.
  Lemma inv_psd C P : sym d C -> psdm d C -> is_inv C P -> psdm d P.
  Proof.
    intros HS HC HI u. specialize (HC (mv P u)). 
    assert (E : forall i, (i < d)%nat -> mv C (mv P u) i = u i).
    { intros i Hi. unfold mv. rewrite (sumR_ext d _ (fun k => sumR d (fun j => C i k * P k j * u j))) by (intros; rewrite <- sumR_scal; apply sumR_ext; intros; ring).
      rewrite sumR_exch. rewrite (sumR_ext d _ (fun j => (if (i =? j)%nat then 1 else 0) * u j)). - apply sum_delta; auto.
      - intros j Hj. rewrite sumR_scal_r. rewrite HI by auto. reflexivity. }
    assert (F : qform d C (mv P u) = qform d P u); [|now rewrite F in HC].
    unfold qform. rewrite (sumR_ext d _ (fun i => mv P u i * u i)).
    2:{ intros i Hi. rewrite <- (E i Hi). change (mv C (mv P u) i) with (sumR d (fun j => C i j * mv P u j)). rewrite <- sumR_scal. apply sumR_ext. intros; ring. }
    apply sumR_ext. intros i Hi. unfold mv. rewrite <- sumR_scal_r. apply sumR_ext. intros; ring.
  Qed.
  (** Among covariance matrices the one of the data is the most likely. *)
  Lemma det_trace C P C' : sym d C -> psdm d C -> is_inv C P -> 0 < D C -> sym d C' -> psdm d C' -> 0 < D C' ->
    ln (D C') + INR d <= sumR d (fun a => sumR d (fun b => P a b * C' a b)) + ln (D C).
  Proof.
    intros SC HC HI DC SC' HC' DC'. pose proof (inv_sym C P SC HI) as SP. pose proof (inv_psd C P SC HC HI) as HP.
    destruct (cholesky d P SP HP) as (L & HL & EL). pose proof HD as (X & M & T & U).
    assert (EP : D C * D P = 1).
    { rewrite <- M. rewrite (X _ (fun i j => if (i =? j)%nat then 1 else 0)) by exact HI. rewrite U.
      - clear. induction d as [|n IH]; cbn; auto. rewrite IH, Nat.eqb_refl. ring.
      - intros i j H1 H2. destruct (Nat.eqb_spec i j); [lia|auto]. }
    assert (DP : 0 < D P) by (destruct (Rlt_le_dec 0 (D P)); auto; nra).
    set (A := mprod d (mprod d (fun i j => L j i) C') L).
    assert (DA : D A = D P * D C').
    { unfold A. rewrite !M, (T L). rewrite (X P (mprod d L (fun i j => L j i))) by exact EL. rewrite M, (T L). ring. }
    assert (EA : forall i j, A i j = sumR d (fun a => sumR d (fun b => L a i * C' a b * L b j))).
    { intros i j. unfold A, mprod. rewrite sumR_exch. apply sumR_ext. intros k Hk. rewrite <- sumR_scal_r. apply sumR_ext. intros; ring. }
    assert (SA : sym d A).
    { intros i j Hi Hj. rewrite !EA. rewrite sumR_exch. apply sumR_ext. intros a Ha. apply sumR_ext. intros b Hb. rewrite (SC' a b) by auto. ring. }
    assert (PA : psdm d A).
    { intros u. specialize (HC' (fun a => sumR d (fun i => L a i * u i))). replace (qform d A u) with (qform d C' (fun a => sumR d (fun i => L a i * u i))); auto.
      unfold qform. symmetry. 
      rewrite (sumR_ext d _ (fun i => sumR d (fun a => sumR d (fun b => sumR d (fun j => u i * L a i * C' a b * (L b j * u j)))))).
      2:{ intros i Hi. rewrite (sumR_ext d _ (fun j => sumR d (fun a => sumR d (fun b => u i * L a i * C' a b * (L b j * u j))))).
          - rewrite sumR_exch. apply sumR_ext. intros a Ha. apply sumR_exch.
          - intros j Hj. rewrite EA. rewrite (Rmult_assoc (u i)), <- sumR_scal_r, <- sumR_scal. apply sumR_ext. intros a Ha. rewrite <- sumR_scal_r, <- sumR_scal. apply sumR_ext. intros b Hb. ring. }
      rewrite sumR_exch. apply sumR_ext. intros a Ha. rewrite sumR_exch. apply sumR_ext. intros b Hb.
      rewrite (sumR_ext d _ (fun i => L a i * u i * (C' a b * sumR d (fun j => L b j * u j)))).
      - rewrite sumR_scal_r. ring.
      - intros i Hi. rewrite sumR_scal. ring. }
    assert (TA : sumR d (fun i => A i i) = sumR d (fun a => sumR d (fun b => P a b * C' a b))).
    { rewrite (sumR_ext d _ (fun i => sumR d (fun a => sumR d (fun b => L a i * C' a b * L b i)))) by (intros; apply EA). rewrite sumR_exch. apply sumR_ext. intros a Ha.
      rewrite sumR_exch. apply sumR_ext. intros b Hb. rewrite EL by auto. rewrite <- sumR_scal_r. apply sumR_ext. intros; ring. }
    pose proof (ln_det_trace A SA PA ltac:(rewrite DA; nra)) as K. rewrite TA, DA, ln_mult in K by auto.
    assert (LP : ln (D C) + ln (D P) = 0) by (rewrite <- ln_mult, EP by auto; apply ln_1). lra.
  Qed.
End Det.

(** Jensen's inequality for the logarithm, in the form used by expectation maximisation. *)
Lemma sumR_pos n f : (0 < n)%nat -> (forall i, (i < n)%nat -> 0 < f i) -> 0 < sumR n f.
Proof. intros Hn H. destruct n as [|n]; [lia|]. cbn. pose proof (sumR_ge0 n f ltac:(intros; left; auto)). specialize (H n ltac:(lia)). lra. Qed.
Lemma jensen k (p p' : nat -> R) : (0 < k)%nat -> (forall j, (j < k)%nat -> 0 < p j) -> (forall j, (j < k)%nat -> 0 < p' j) ->
  sumR k (fun j => p j / sumR k p * (ln (p' j) - ln (p j))) <= ln (sumR k p') - ln (sumR k p).
Proof.
  intros Hk H H'. pose proof (sumR_pos k p Hk H) as S. pose proof (sumR_pos k p' Hk H') as S'. set (s := sumR k p) in *. set (s' := sumR k p') in *.
  assert (E1 : sumR k (fun j => p j / s) = 1) by (unfold Rdiv; rewrite sumR_scal_r; fold s; field; lra).
  assert (E2 : sumR k (fun j => p' j / s') = 1) by (unfold Rdiv; rewrite sumR_scal_r; fold s'; field; lra).
  assert (K : sumR k (fun j => p j / s * (ln (p' j) - ln (p j)) - p j / s * (ln s' - ln s)) <= sumR k (fun j => p' j / s' - p j / s)).
  { apply sumR_le. intros j Hj. specialize (H j Hj). specialize (H' j Hj).
    assert (0 < p j / s) by (apply Rdiv_lt_0_compat; auto).
    assert (L : ln (p' j) - ln (p j) - (ln s' - ln s) <= (p' j / s') / (p j / s) - 1).
    { eapply Rle_trans; [|apply ln_le_sub1; apply Rdiv_lt_0_compat; auto; apply Rdiv_lt_0_compat; auto].
      unfold Rdiv. rewrite Rinv_mult, Rinv_inv. rewrite !ln_mult, !ln_Rinv by (auto; try apply Rinv_0_lt_compat; auto; try apply Rmult_lt_0_compat; auto; apply Rinv_0_lt_compat; auto). lra. }
    apply (Rmult_le_compat_l (p j / s)) in L; [|lra]. replace (p j / s * (p' j / s' / (p j / s) - 1)) with (p' j / s' - p j / s) in L by (field; lra). lra. }
  rewrite !sumR_minus, sumR_scal_r, E1, E2 in K. lra.
Qed.
