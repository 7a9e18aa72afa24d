(** Linear algebra in every size: inverses of positive definite and of injective matrices, Cholesky factors. *)
From Coq Require Import List Arith Reals Lra Lia Bool.
From Verif Require Import Base BaseLemmas Num NumFn Linalg Spec_Calc Proof_KMeans MatR Spec_GMM Proof_EM Proof_Det.
Import ListNotations.
Local Open Scope R_scope.

Definition dlt (a b : nat) : R := if (a =? b)%nat then 1 else 0.
Definition inj (n : nat) (A : nat -> nat -> R) : Prop := forall x, (forall i, (i < n)%nat -> sumR n (fun j => A i j * x j) = 0) -> forall j, (j < n)%nat -> x j = 0.
Definition pd (n : nat) (A : nat -> nat -> R) : Prop := forall u, (exists i, (i < n)%nat /\ u i <> 0) -> 0 < qform n A u.
Definition rinv (n : nat) (A P : nat -> nat -> R) : Prop := forall a b, (a < n)%nat -> (b < n)%nat -> sumR n (fun k => A a k * P k b) = dlt a b.

Lemma sum_dlt n f a : (a < n)%nat -> sumR n (fun k => dlt a k * f k) = f a.
Proof. intro Ha. rewrite (sumR_single n _ a Ha). - unfold dlt. rewrite Nat.eqb_refl. ring. - intros i Hi Hia. unfold dlt. destruct (Nat.eqb_spec a i); [lia|ring]. Qed.
Lemma sum_dlt_r n f a : (a < n)%nat -> sumR n (fun k => f k * dlt k a) = f a.
Proof. intro Ha. rewrite (sumR_single n _ a Ha). - unfold dlt. rewrite Nat.eqb_refl. ring. - intros i Hi Hia. unfold dlt. destruct (Nat.eqb_spec i a); [lia|ring]. Qed.
Lemma assoc_mv n (A B : nat -> nat -> R) (x : nat -> R) i : sumR n (fun k => A i k * sumR n (fun j => B k j * x j)) = sumR n (fun j => sumR n (fun k => A i k * B k j) * x j).
Proof.
  rewrite (sumR_ext n _ (fun k => sumR n (fun j => A i k * B k j * x j))) by (intros; rewrite <- sumR_scal; apply sumR_ext; intros; ring).
  rewrite sumR_exch. apply sumR_ext. intros j Hj. now rewrite sumR_scal_r.
Qed.
Lemma left_inj n A P : rinv n P A -> inj n A.
Proof.
  intros H x Hx j Hj. rewrite <- (sum_dlt n x j Hj). rewrite (sumR_ext n _ (fun k => sumR n (fun i => P j i * A i k) * x k)) by (intros; rewrite H by auto; reflexivity).
  rewrite <- assoc_mv. apply sumR_zero. intros i Hi. rewrite Hx by auto. ring.
Qed.

(** Positive definite matrices, by bordering. *)
Fixpoint pdinv (n : nat) (C : nat -> nat -> R) (i j : nat) : R :=
  match n with
  | O => 0
  | S m =>
      let w := fun a => sumR m (fun k => pdinv m C a k * C k m) in
      let s := C m m - sumR m (fun k => C m k * w k) in
      if (i <? m)%nat then if (j <? m)%nat then pdinv m C i j + w i * w j / s else - w i / s
      else if (j <? m)%nat then - w j / s else / s
  end.
Lemma pd_inverse n : forall C, sym n C -> pd n C -> rinv n C (pdinv n C).
Proof.
  induction n as [|n IH]; intros C HS HP; [intros a b; lia|].
  assert (HS' : sym n C) by (intros i j Hi Hj; apply HS; lia).
  assert (Q : forall u, qform (S n) C u = qform n C u + 2 * u n * sumR n (fun k => C n k * u k) + C n n * u n * u n).
  { intro u. unfold qform. cbn [sumR]. rewrite sumR_plus. rewrite (sumR_ext n (fun i => u i * C i n * u n) (fun i => u n * (C n i * u i))) by (intros i Hi; rewrite (HS i n) by lia; ring).
    rewrite sumR_scal. rewrite (sumR_ext n (fun j => u n * C n j * u j) (fun i => u n * (C n i * u i))) by (intros; ring). rewrite sumR_scal. ring. }
  assert (HP' : pd n C).
  { intros u (i & Hi & Hu). set (u' := fun k => if (k <? n)%nat then u k else 0).
    assert (E : qform (S n) C u' = qform n C u).
    { rewrite Q. unfold u' at 2 4 5. rewrite Nat.ltb_irrefl. replace (_ + _ + _) with (qform n C u') by ring. unfold qform. apply sumR_ext. intros a Ha. apply sumR_ext. intros b Hb.
      unfold u'. destruct (Nat.ltb_spec a n); [|lia]. destruct (Nat.ltb_spec b n); [|lia]. reflexivity. }
    rewrite <- E. apply HP. exists i. split; [lia|]. unfold u'. destruct (Nat.ltb_spec i n); [auto|lia]. }
  pose proof (IH C HS' HP') as R0. set (P := pdinv n C) in *.
  assert (PS : forall i j, (i < n)%nat -> (j < n)%nat -> P i j = P j i) by (intros i j Hi Hj; apply (inv_sym n C P HS' R0); auto).
  set (w := fun a => sumR n (fun k => P a k * C k n)). set (s := C n n - sumR n (fun k => C n k * w k)).
  (* C' w = b, and so the pivot is the value of the form at (-w, 1) *)
  assert (Cw : forall a, (a < n)%nat -> sumR n (fun k => C a k * w k) = C a n).
  { intros a Ha. unfold w. rewrite (assoc_mv n C P (fun k => C k n) a). rewrite (sumR_ext n _ (fun j => dlt a j * C j n)) by (intros j Hj; rewrite R0 by auto; reflexivity). apply (sum_dlt n (fun j => C j n)); auto. }
  assert (Ps : 0 < s).
  { pose proof (HP (fun i => if (i <? n)%nat then - w i else 1)) as K. assert (Kx : 0 < qform (S n) C (fun i => if (i <? n)%nat then - w i else 1)).
    { apply K. exists n. split; [lia|]. rewrite Nat.ltb_irrefl. lra. } rewrite Q in Kx. rewrite Nat.ltb_irrefl in Kx.
    rewrite (sumR_ext n _ (fun k => -1 * (C n k * w k))) in Kx by (intros i Hi; destruct (Nat.ltb_spec i n); [ring|lia]). rewrite sumR_scal in Kx.
    assert (E : qform n C (fun i => if (i <? n)%nat then - w i else 1) = sumR n (fun k => C n k * w k)).
    { unfold qform. apply sumR_ext. intros i Hi. destruct (Nat.ltb_spec i n); [|lia]. rewrite (sumR_ext n _ (fun j => w i * (C i j * w j))) by (intros j Hj; destruct (Nat.ltb_spec j n); [ring|lia]).
      rewrite sumR_scal, Cw by auto. rewrite (HS i n) by lia. ring. }
    rewrite E in Kx. unfold s. lra. }
  assert (Pw : forall b, (b < n)%nat -> sumR n (fun k => C n k * P k b) = w b).
  { intros b Hb. unfold w. apply sumR_ext. intros k Hk. rewrite (PS k b), (HS n k) by lia. ring. }
  assert (U : forall i j, pdinv (S n) C i j = if (i <? n)%nat then if (j <? n)%nat then P i j + w i * w j / s else - w i / s else if (j <? n)%nat then - w j / s else / s) by reflexivity.
  intros a b Ha Hb. cbn [sumR]. rewrite !U. rewrite !Nat.ltb_irrefl. rewrite (sumR_ext n _ (fun k => C a k * if (b <? n)%nat then P k b + w k * w b / s else - w k / s)) by (intros k Hk; rewrite U; destruct (Nat.ltb_spec k n); [reflexivity|lia]).
  destruct (Nat.ltb_spec b n) as [Hbn|Hbn].
  - rewrite (sumR_ext n _ (fun k => C a k * P k b + (w b / s) * (C a k * w k))) by (intros k Hk; field; lra).
    rewrite sumR_plus, sumR_scal. destruct (Nat.eq_dec a n) as [->|Han].
    + rewrite Pw by auto. unfold dlt. destruct (Nat.eqb_spec n b); [lia|]. replace (sumR n (fun k => C n k * w k)) with (C n n - s) by (unfold s; ring). field. lra.
    + rewrite R0, Cw by lia. field. lra.
  - replace b with n by lia. rewrite (sumR_ext n _ (fun k => (- / s) * (C a k * w k))) by (intros k Hk; field; lra).
    rewrite sumR_scal. unfold dlt. destruct (Nat.eqb_spec a n) as [->|Han].
    + replace (sumR n (fun k => C n k * w k)) with (C n n - s) by (unfold s; ring). field. lra.
    + rewrite Cw by lia. field. lra.
Qed.

(** Injective matrices. *)
Lemma det_1 n : det n dlt = 1.
Proof.
  rewrite det_lower. - induction n as [|n IH]; cbn [prodR]; [reflexivity|]. rewrite IH. unfold dlt. rewrite Nat.eqb_refl. ring.
  - intros i j Hij _. unfold dlt. destruct (Nat.eqb_spec i j); [lia|reflexivity].
Qed.
Lemma det_rinv n A P : rinv n A P -> det n A * det n P = 1.
Proof. intro H. rewrite <- det_mult. rewrite (det_ext n _ dlt); [apply det_1|]. intros i j Hi Hj. now apply H. Qed.
Lemma wprod_zero_row A k : forall l m, (m < k)%nat -> (forall j, (j < length l)%nat -> A m j = 0) -> wprod A k l = 0.
Proof.
  induction k as [|k IH]; intros l m Hm H; [lia|]. cbn [wprod]. destruct (Nat.eq_dec m k) as [->|N].
  - rewrite (wedge_ext l (A k) (fun i => 0 * 0 + 0 * 0) (wprod A k) (wprod A k)) by (auto; intros; rewrite H by auto; ring). rewrite (wedge_lin_v l (fun _ => 0) (fun _ => 0)). ring.
  - apply wedge_0. intros l' Hl. apply (IH l' m); [lia|]. intros j Hj. apply H. lia.
Qed.
Lemma det_inj n A : det n A <> 0 -> inj n A.
Proof.
  intros HD x Hx.
  (* strong induction on the index of the first coordinate that is not zero *)
  assert (K : forall a, (a <= n)%nat -> forall j, (j < a)%nat -> x j = 0).
  { induction a as [|a IH]; intros Ha j Hj; [lia|]. destruct (Nat.eq_dec j a) as [->|N]; [|apply IH; lia]. destruct (Req_dec (x a) 0) as [|Nx]; [assumption|exfalso].
    set (M := fun i k => if (k =? a)%nat then x i else dlt i k). apply HD.
    assert (E : det n (mprod n A M) = 0).
    { rewrite <- det_transpose. apply (wprod_zero_row _ n (repeat true n) a); [lia|]. intros i Hi. rewrite repeat_length in Hi. unfold mprod, M. rewrite Nat.eqb_refl. now apply Hx. }
    rewrite det_mult in E. apply Rmult_integral in E. destruct E as [E|E]; [exact E|exfalso].
    rewrite det_lower in E.
    - assert (Q : prodR n (fun i => M i i) <> 0); [|contradiction]. clear E. assert (Q : forall i, (i < n)%nat -> M i i <> 0).
      { intros i Hi. unfold M. destruct (Nat.eqb_spec i a) as [->|]; [exact Nx|]. unfold dlt. rewrite Nat.eqb_refl. lra. }
      clear -Q. induction n as [|n IH]; cbn [prodR]; [lra|]. apply Rmult_integral_contrapositive_currified; [apply IH; intros; apply Q; lia|apply Q; lia].
    - intros i k Hik Hk. unfold M. destruct (Nat.eqb_spec k a) as [->|]; [apply IH; lia|]. unfold dlt. destruct (Nat.eqb_spec i k); [lia|reflexivity]. }
  intros j Hj. apply (K n); lia.
Qed.
Lemma rinv_inj n A P : rinv n A P -> inj n A /\ inj n P.
Proof. intro H. pose proof (det_rinv n A P H) as E. split; apply det_inj; intro K; rewrite K in E; lra. Qed.
Lemma rinv_comm n A P : rinv n A P -> rinv n P A.
Proof.
  intros H a b Ha Hb. destruct (rinv_inj n A P H) as [I _].
  assert (K : sumR n (fun k => P a k * A k b) - dlt a b = 0); [|lra].
  apply (I (fun a => sumR n (fun k => P a k * A k b) - dlt a b)); [|exact Ha]. intros i Hi.
  rewrite (sumR_ext n _ (fun j => A i j * sumR n (fun k => P j k * A k b) - A i j * dlt j b)) by (intros; ring). rewrite sumR_minus.
  rewrite (assoc_mv n A P (fun k => A k b) i). rewrite (sumR_ext n _ (fun j => dlt i j * A j b)) by (intros; rewrite H by auto; reflexivity).
  rewrite (sum_dlt n (fun j => A j b)), (sum_dlt_r n (fun j => A i j)) by auto. ring.
Qed.
Lemma gram_pd n m A : (forall x, (forall i, (i < m)%nat -> sumR n (fun j => A i j * x j) = 0) -> forall j, (j < n)%nat -> x j = 0) ->
  forall w, (forall i, (i < m)%nat -> 0 < w i) -> pd n (fun a b => sumR m (fun i => A i a * w i * A i b)).
Proof.
  intros H w Hw u (i & Hi & Hu).
  assert (E : qform n (fun a b => sumR m (fun i => A i a * w i * A i b)) u = sumR m (fun i => w i * (sumR n (fun j => A i j * u j)) ^ 2)).
  { unfold qform. rewrite (sumR_ext n _ (fun a => sumR m (fun k => w k * sumR n (fun b => A k b * u b) * (A k a * u a)))).
    - rewrite sumR_exch. apply sumR_ext. intros k Hk. rewrite sumR_scal. ring.
    - intros a Ha. rewrite (sumR_ext n _ (fun b => sumR m (fun k => u a * (A k a * w k * A k b) * u b))) by (intros b Hb; rewrite sumR_scal_r, sumR_scal; reflexivity).
      rewrite sumR_exch. apply sumR_ext. intros k Hk. rewrite <- sumR_scal, <- sumR_scal_r. apply sumR_ext. intros; ring. }
  rewrite E. assert (P0 : forall k, (k < m)%nat -> 0 <= w k * (sumR n (fun j => A k j * u j)) ^ 2) by (intros k Hk; apply Rmult_le_pos; [left; auto|apply pow2_ge_0]).
  destruct (Rle_lt_or_eq_dec _ _ (sumR_ge0 m _ P0)) as [|Z]; [assumption|]. exfalso. apply Hu. apply (H u); [|exact Hi]. intros k Hk.
  pose proof (sumR_ge_term m _ k P0 Hk) as K. cbn beta in K. rewrite <- Z in K. pose proof (P0 k Hk). pose proof (Hw k Hk). assert (E2 : w k * sumR n (fun j => A k j * u j) ^ 2 = 0) by lra.
  apply Rmult_integral in E2. destruct E2 as [E2|E2]; [lra|]. replace (_ ^ 2) with (sumR n (fun j => A k j * u j) * sumR n (fun j => A k j * u j)) in E2 by ring. apply Rmult_integral in E2. tauto.
Qed.
Definition ginv (n : nat) (A : nat -> nat -> R) : nat -> nat -> R := mprod n (pdinv n (fun a b => sumR n (fun i => A i a * 1 * A i b))) (fun i j => A j i).
Lemma inj_inverse n A : inj n A -> rinv n A (ginv n A).
Proof.
  intro H. apply rinv_comm. set (C := fun a b => sumR n (fun i => A i a * 1 * A i b)).
  assert (HS : sym n C) by (intros i j Hi Hj; unfold C; apply sumR_ext; intros; ring).
  pose proof (pd_inverse n C HS (gram_pd n n A H (fun _ => 1) (fun _ _ => Rlt_0_1))) as R1. apply rinv_comm in R1.
  intros a b Ha Hb. unfold ginv, mprod. fold C.
  rewrite (sumR_ext n _ (fun k => sumR n (fun j => pdinv n C a j * (A k j * A k b)))) by (intros k Hk; rewrite <- sumR_scal_r; apply sumR_ext; intros; ring).
  rewrite sumR_exch. rewrite <- (R1 a b Ha Hb). apply sumR_ext. intros j Hj. rewrite sumR_scal. f_equal. unfold C. apply sumR_ext. intros; ring.
Qed.
Lemma pd_inj n A : pd n A -> inj n A.
Proof.
  intros H x Hx j Hj. destruct (Req_dec (x j) 0) as [|N]; [assumption|]. assert (K : 0 < qform n A x) by (apply H; eauto). exfalso.
  assert (qform n A x = 0); [|lra]. unfold qform. apply sumR_zero. intros i Hi. rewrite (sumR_ext n _ (fun j => x i * (A i j * x j))) by (intros; ring). rewrite sumR_scal, Hx by auto. ring.
Qed.
(** The determinant of a positive semidefinite matrix with an inverse. *)
Lemma det_psd n C P : sym n C -> psdm n C -> rinv n C P -> 0 < det n C.
Proof.
  intros HS HP HR. destruct (cholesky n C HS HP) as (L & HL & EL). pose proof (det_rinv n C P HR) as E.
  assert (Q : det n C = det n L * det n L). { rewrite <- (det_transpose n L) at 2. rewrite <- det_mult. apply det_ext. intros i j Hi Hj. unfold mprod. rewrite EL by auto. reflexivity. }
  rewrite Q in *. destruct (Req_dec (det n L) 0) as [Z|Z]; [rewrite Z in E; lra|]. apply Rsqr_pos_lt in Z. exact Z.
Qed.
