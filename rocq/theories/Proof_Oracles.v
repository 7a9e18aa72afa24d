(** Exact solvers and decompositions exist in every size. *)
From Coq Require Import List Arith Reals Lra Lia Bool.
From Verif Require Import Base BaseLemmas Num NumFn Linalg LinalgR Spec_Calc CalcR Proof_KMeans Proof_Toolkit MatR Proof_NNet2 Spec_Regression Spec_GLM Spec_GP Model_GMM Spec_GMM Spec_Succeeds Proof_EM Proof_EM2 Proof_Det Proof_Inverse.
Import ListNotations.
Local Open Scope R_scope.

Lemma repeat_nth0 n (v : list R) : length v = n -> (forall i, (i < n)%nat -> nth i v 0 = 0) -> v = repeat 0 n.
Proof. intros L H. apply (nth_ext _ _ 0 0); [now rewrite repeat_length|]. intros i Hi. rewrite H by lia. symmetry. apply nth_repeat. Qed.
Lemma mv_zero (A : matrix R) v : mwf A -> length v = mcols A -> (mat_vec A v = repeat 0 (nrows A) <-> forall i, (i < nrows A)%nat -> sumR (mcols A) (fun j => entry A i j * nth j v 0) = 0).
Proof.
  intros W L. split.
  - intros E i Hi. rewrite <- mat_vec_nth by auto. rewrite E. apply nth_repeat.
  - intro H. apply repeat_nth0; [apply mat_vec_length'|]. intros i Hi. rewrite mat_vec_nth by auto. now apply H.
Qed.
Lemma regular_inj A n : mwf A -> nrows A = n -> mcols A = n -> (regular A <-> inj n (entry A)).
Proof.
  intros W Hr Hc. split.
  - intros (_ & _ & H) x Hx j Hj. set (v := map x (seq 0 n)). assert (Lv : length v = n) by (unfold v; now rewrite map_length, seq_length).
    assert (Nv : forall k, (k < n)%nat -> nth k v 0 = x k) by (intros k Hk; unfold v; now rewrite nth_map_seq).
    assert (E : v = repeat 0 (mcols A)). { apply H; [congruence|]. apply mv_zero; [auto|congruence|]. intros i Hi. rewrite Hc. rewrite (sumR_ext n _ (fun j => entry A i j * x j)) by (intros; rewrite Nv by auto; reflexivity). apply Hx. lia. }
    rewrite <- Nv by auto. rewrite E. apply nth_repeat.
  - intro H. split; [auto|]. split; [congruence|]. intros v Lv E. rewrite Hc in *. apply repeat_nth0; [auto|]. apply (H (fun j => nth j v 0)). intros i Hi.
    rewrite (mv_zero A v W ltac:(congruence)) in E. rewrite Hc in E. apply E. lia.
Qed.

Definition mat_of (n : nat) (f : nat -> nat -> R) : matrix R := Mat (map (fun i => map (f i) (seq 0 n)) (seq 0 n)) n.
Lemma mat_of_wf n f : mwf (mat_of n f).
Proof. unfold mwf, mat_of. cbn [mrows mcols]. apply Forall_forall. intros r Hr. apply in_map_iff in Hr. destruct Hr as (i & <- & _). now rewrite map_length, seq_length. Qed.
Lemma mat_of_nrows n f : nrows (mat_of n f) = n.
Proof. unfold nrows, mat_of. cbn. now rewrite map_length, seq_length. Qed.
Lemma mat_of_entry n f i j : (i < n)%nat -> (j < n)%nat -> entry (mat_of n f) i j = f i j.
Proof. intros Hi Hj. unfold entry, mat_of. cbn [mrows]. rewrite (nth_map_seq _ _ _ []) by auto. now rewrite nth_map_seq. Qed.
Lemma mat_of_mv n f v i : length v = n -> (i < n)%nat -> nth i (mat_vec (mat_of n f) v) 0 = sumR n (fun j => f i j * nth j v 0).
Proof. intros L Hi. rewrite mat_vec_nth; [|apply mat_of_wf|exact L|now rewrite mat_of_nrows]. cbn [mcols mat_of]. apply sumR_ext. intros j Hj. now rewrite mat_of_entry. Qed.

Lemma all_dec (n : nat) (P : nat -> Prop) : (forall i, {P i} + {~ P i}) -> {forall i, (i < n)%nat -> P i} + {~ forall i, (i < n)%nat -> P i}.
Proof.
  intro D. induction n as [|n [IH|IH]].
  - left. intros i Hi. lia.
  - destruct (D n) as [H|H]. + left. intros i Hi. destruct (Nat.eq_dec i n) as [->|]; [exact H|apply IH; lia]. + right. intro K. apply H, K. lia.
  - right. intro K. apply IH. intros i Hi. apply K. lia.
Defined.
Definition rinv_dec n A P : {rinv n A P} + {~ rinv n A P}.
Proof.
  destruct (all_dec n (fun a => forall b, (b < n)%nat -> sumR n (fun k => A a k * P k b) = dlt a b)) as [H|H].
  - intro a. apply all_dec. intro b. apply Req_EM_T.
  - left. intros a b Ha Hb. now apply H.
  - right. intro K. apply H. intros a Ha b Hb. now apply K.
Defined.
Definition wf_dec (A : matrix R) : {mwf A} + {~ mwf A}. Proof. apply Forall_dec. intro r. apply Nat.eq_dec. Defined.

(** [Matrix::inverse]. *)
Definition inverse_any (A : matrix R) : option (matrix R) :=
  if rinv_dec (nrows A) (entry A) (ginv (nrows A) (entry A)) then Some (mat_of (nrows A) (ginv (nrows A) (entry A))) else None.
Lemma rinv_mv n A P v i : rinv n A P -> (i < n)%nat -> sumR n (fun k => A i k * sumR n (fun j => P k j * v j)) = v i.
Proof. intros H Hi. rewrite assoc_mv. rewrite (sumR_ext n _ (fun j => dlt i j * v j)) by (intros; rewrite H by auto; reflexivity). now apply sum_dlt. Qed.
Lemma inverse_any_exact : inverse_exact inverse_any.
Proof.
  split.
  - intros A B W Sq H. unfold inverse_any in H. destruct (rinv_dec _ _ _) as [HR|]; [|discriminate]. injection H as <-. set (n := nrows A) in *. set (G := ginv n (entry A)) in *.
    split; [apply mat_of_wf|]. split; [apply mat_of_nrows|]. split; [reflexivity|]. intros v Lv. pose proof (rinv_comm n _ _ HR) as HL. split.
    + apply (nth_ext _ _ 0 0); [now rewrite mat_vec_length'|]. intros i Hi. rewrite mat_vec_length' in Hi. fold n in Hi. rewrite mat_vec_nth by (auto; rewrite mat_vec_length', mat_of_nrows; congruence).
      rewrite <- Sq. fold n. rewrite (sumR_ext n _ (fun k => entry A i k * sumR n (fun j => G k j * nth j v 0))) by (intros k Hk; rewrite mat_of_mv by auto; reflexivity). now apply rinv_mv.
    + apply (nth_ext _ _ 0 0); [rewrite mat_vec_length', mat_of_nrows; auto|]. intros i Hi. rewrite mat_vec_length', mat_of_nrows in Hi. rewrite mat_of_mv by (auto; now rewrite mat_vec_length').
      rewrite (sumR_ext n _ (fun k => G i k * sumR n (fun j => entry A k j * nth j v 0))) by (intros k Hk; rewrite mat_vec_nth by (auto; congruence); rewrite <- Sq; reflexivity). now apply rinv_mv.
  - intros A HA. unfold inverse_any. destruct HA as (W & Sq & HA'). destruct (rinv_dec _ _ _) as [|N]; [eauto|]. exfalso. apply N. apply inj_inverse. apply (regular_inj A (nrows A)); auto. repeat split; auto.
Qed.

(** [Matrix::solve] and the triangular solvers. *)
Definition solve_any (A : matrix R) (b : list R) : res (list R) :=
  if wf_dec A then
    if Nat.eq_dec (nrows A) (mcols A) then
      if Nat.eq_dec (length b) (nrows A) then
        if rinv_dec (nrows A) (entry A) (ginv (nrows A) (entry A)) then Ok (mat_vec (mat_of (nrows A) (ginv (nrows A) (entry A))) b) else Err LinearAlgebra
      else Panic
    else Panic
  else Panic.
Lemma solve_any_Ok A b x : solve_any A b = Ok x -> regular A /\ length x = mcols A /\ mat_vec A x = b.
Proof.
  unfold solve_any. destruct (wf_dec A) as [W|]; [|discriminate]. destruct (Nat.eq_dec (nrows A) (mcols A)) as [Sq|]; [|discriminate]. destruct (Nat.eq_dec (length b) (nrows A)) as [Lb|]; [|discriminate].
  destruct (rinv_dec _ _ _) as [HR|]; [|discriminate]. intro H. apply Ok_inj in H. subst x. set (n := nrows A) in *. set (G := ginv n (entry A)) in *.
  split. { apply (regular_inj A n); auto. now apply (rinv_inj n _ G). } split; [rewrite mat_vec_length', mat_of_nrows; congruence|].
  apply (nth_ext _ _ 0 0); [rewrite mat_vec_length'; auto|]. intros i Hi. rewrite mat_vec_length' in Hi. fold n in Hi. rewrite mat_vec_nth by (auto; rewrite mat_vec_length', mat_of_nrows; congruence).
  rewrite <- Sq. fold n. rewrite (sumR_ext n _ (fun k => entry A i k * sumR n (fun j => G k j * nth j b 0))) by (intros k Hk; rewrite mat_of_mv by auto; reflexivity). now apply rinv_mv.
Qed.
Lemma solve_any_total A b : regular A -> length b = nrows A -> exists x, solve_any A b = Ok x.
Proof.
  intros HA Lb. unfold solve_any. destruct HA as (W & Sq & H). destruct (wf_dec A); [|contradiction]. destruct (Nat.eq_dec (nrows A) (mcols A)); [|contradiction]. destruct (Nat.eq_dec (length b) (nrows A)); [|contradiction].
  destruct (rinv_dec _ _ _) as [|N]; [eauto|]. exfalso. apply N, inj_inverse. apply (regular_inj A (nrows A)); auto. repeat split; auto.
Qed.
Lemma solve_any_exact : solver_exact solve_any.
Proof.
  split; [intros A b x H; now apply solve_any_Ok in H|]. intros A b W Sq Lb. split; [intros (x & H); now apply solve_any_Ok in H|]. intro H. now apply solve_any_total.
Qed.
Lemma regular_unique A u v : regular A -> length u = mcols A -> length v = mcols A -> mat_vec A u = mat_vec A v -> u = v.
Proof.
  intros (W & Sq & H) Lu Lv E.
  assert (K : forall i, (i < mcols A)%nat -> nth i u 0 - nth i v 0 = 0).
  { apply (proj1 (regular_inj A (mcols A) W Sq eq_refl) (conj W (conj Sq H)) (fun i => nth i u 0 - nth i v 0)). intros i Hi.
    rewrite (sumR_ext _ _ (fun j => entry A i j * nth j u 0 - entry A i j * nth j v 0)) by (intros; ring). rewrite sumR_minus, <- !mat_vec_nth by (auto; lia). rewrite E. ring. }
  apply (nth_ext _ _ 0 0); [congruence|]. intros i Hi. specialize (K i ltac:(lia)). lra.
Qed.
Lemma triangular_any_exact shape : triangular_exact shape solve_any.
Proof.
  split.
  - intros L b x W _ H. apply solve_any_Ok in H. destruct H as (HR & Lx & E). split; [exact Lx|]. split; [exact E|]. intros x' Lx' E'. apply (regular_unique L); auto. congruence.
  - intros L b _ HR Lb. now apply solve_any_total.
Qed.

(** Cholesky factors. *)
Fixpoint chol (n : nat) (A : nat -> nat -> R) (i j : nat) : R :=
  match n with
  | O => 0
  | S m => match i, j with
           | O, O => sqrt (A 0%nat 0%nat)
           | O, S _ => 0
           | S i', O => A 0%nat (S i') / sqrt (A 0%nat 0%nat)
           | S i', S j' => chol m (fun a b => A (S a) (S b) - A 0%nat (S a) * A 0%nat (S b) * / A 0%nat 0%nat) i' j'
           end
  end.
Lemma chol_factor n : forall A, sym n A -> pd n A -> lower n (chol n A) /\ forall i j, (i < n)%nat -> (j < n)%nat -> A i j = sumR n (fun k => chol n A i k * chol n A j k).
Proof.
  induction n as [|n IH]; intros A HS HP; [split; intros i j; lia|].
  set (a := A 0%nat 0%nat). set (b := fun j => A 0%nat (S j)). set (B := fun i j => A (S i) (S j) - b i * b j * / a).
  assert (Ha : 0 < a).
  { assert (K : 0 < qform (S n) A (fun i => match i with O => 1 | S _ => 0 end)) by (apply HP; exists 0%nat; split; [lia|lra]). rewrite qform_split in K by auto. cbn beta iota in K.
    rewrite (qform_zero n _ (fun _ => 0)) in K by auto. rewrite (sumR_zero n) in K by (intros; ring). fold a in K. lra. }
  destruct (IH B) as (HL & EL).
  { intros i j Hi Hj. unfold B. rewrite (HS (S i) (S j)) by lia. ring. }
  { intros u (i & Hi & Hu). unfold B. rewrite qform_outer. set (s := sumR n (fun j => b j * u j)).
    assert (K : 0 < qform (S n) A (fun i => match i with O => - s / a | S i => u i end)) by (apply HP; exists (S i); split; [lia|exact Hu]). rewrite qform_split in K by auto. cbn beta iota in K.
    change (sumR n (fun j => A 0%nat (S j) * u j)) with s in K. fold a in K. replace (a * (- s / a * (- s / a)) + 2 * (- s / a) * s) with (- (/ a * (s * s))) in K by (field; lra).
    change (fun i => u i) with u in K. lra. }
  assert (Pq : 0 < sqrt a) by (apply sqrt_lt_R0; lra).
  assert (U : forall i j, chol (S n) A i j = match i, j with O, O => sqrt a | O, S _ => 0 | S i', O => b i' / sqrt a | S i', S j' => chol n B i' j' end) by (intros [|i] [|j]; reflexivity).
  split.
  - intros [|i] [|j] H1 H2; rewrite U; try lia; auto. apply HL; lia.
  - intros i j Hi Hj. rewrite sumR_S_l. rewrite (sumR_ext n _ (fun k => match i, j with S i', S j' => chol n B i' k * chol n B j' k | _, _ => 0 end)) by (intros k Hk; rewrite !U; destruct i, j; ring).
    rewrite !U. destruct i as [|i], j as [|j].
    * rewrite sumR_zero by (intros; ring). rewrite sqrt_sqrt by lra. fold a. ring.
    * rewrite sumR_zero by (intros; ring). fold (b j). field. lra.
    * rewrite sumR_zero by (intros; ring). rewrite (HS (S i) 0%nat) by lia. fold (b i). field. lra.
    * rewrite <- EL by lia. unfold B. replace (b i / sqrt a * (b j / sqrt a)) with (b i * b j * / (sqrt a * sqrt a)) by (field; lra). rewrite sqrt_sqrt by lra. ring.
Qed.
Definition factor_dec n (A L : nat -> nat -> R) : {lower n L /\ forall i, (i < n)%nat -> forall j, (j < n)%nat -> A i j = sumR n (fun k => L i k * L j k)} + {~ (lower n L /\ forall i, (i < n)%nat -> forall j, (j < n)%nat -> A i j = sumR n (fun k => L i k * L j k))}.
Proof.
  destruct (all_dec n (fun i => forall j, (j < n)%nat -> A i j = sumR n (fun k => L i k * L j k))) as [H|H]; [intro i; apply all_dec; intro j; apply Req_EM_T| |right; tauto].
  destruct (all_dec n (fun j => forall i, (i < j)%nat -> L i j = 0)) as [K|K]; [intro j; apply all_dec; intro i; apply Req_EM_T| |].
  - left. split; [|exact H]. intros i j Hij Hj. now apply K.
  - right. intros [Q _]. apply K. intros j Hj i Hi. now apply Q.
Defined.
Definition cholesky_any (A : matrix R) : option (matrix R) := if factor_dec (nrows A) (entry A) (chol (nrows A) (entry A)) then Some (mat_of (nrows A) (chol (nrows A) (entry A))) else None.
Lemma cholesky_any_exact : cholesky_exact cholesky_any.
Proof.
  split.
  - intros A M W Sq H. unfold cholesky_any in H. destruct (factor_dec _ _ _) as [[HL EL]|]; [|discriminate]. injection H as <-. set (n := nrows A) in *. set (L := chol n (entry A)) in *.
    split; [apply mat_of_wf|]. split; [apply mat_of_nrows|]. split; [reflexivity|]. split.
    + intros i j Hij Hj. cbn [mcols mat_of] in Hj. change (entry (mat_of n L) i j = 0). rewrite mat_of_entry by lia. now apply HL.
    + intros v Lv. apply (nth_ext _ _ 0 0); [rewrite !mat_vec_length', mat_of_nrows; reflexivity|]. intros i Hi. rewrite mat_vec_length', mat_of_nrows in Hi.
      rewrite mat_of_mv by (auto; now rewrite mat_vec_length', transpose_nrows). rewrite mat_vec_nth by (auto; congruence). rewrite <- Sq. fold n.
      rewrite (sumR_ext n _ (fun k => L i k * sumR n (fun j => L j k * nth j v 0))).
      * rewrite (assoc_mv n L (fun k j => L j k) (fun j => nth j v 0) i). apply sumR_ext. intros j Hj. now rewrite EL.
      * intros k Hk. f_equal. rewrite mat_vec_nth; [|apply transpose_wf|rewrite transpose_mcols, mat_of_nrows; exact Lv|rewrite transpose_nrows; exact Hk]. rewrite transpose_mcols, mat_of_nrows.
        apply sumR_ext. intros j Hj. rewrite transpose_entry by (rewrite ?mat_of_nrows; auto). now rewrite mat_of_entry.
  - intros d C (W & Hr & Hc & HS & HP). subst d. unfold cholesky_any. destruct (factor_dec _ _ _) as [|N]; [eauto|]. exfalso. apply N. destruct (chol_factor (nrows C) (entry C) HS HP) as [HL EL]. split; [exact HL|]. intros; now apply EL.
Qed.

(** [PartialPivLu]: determinant and inverse. *)
Definition lup_any (C : matrix R) : res (R * matrix R) := match inverse_any C with Some P => Ok (det (nrows C) (entry C), P) | None => Panic end.
Lemma lup_any_exact : lup_exact lup_any.
Proof.
  split.
  - intros C d dt Ci HC H. unfold lup_any, inverse_any in H. destruct (rinv_dec _ _ _) as [HR|]; [|discriminate]. apply Ok_inj in H. injection H as <- <-. pose proof (covariance_sym d C HC) as [HS HP].
    destruct HC as (W & Hr & Hc & _). subst d. split; [exact (det_psd _ _ _ HS HP HR)|]. split; [apply mat_of_wf|]. split; [apply mat_of_nrows|]. split; [reflexivity|].
    intros a b Ha Hb. change (if (a =? b)%nat then 1 else 0) with (dlt a b). rewrite <- (HR a b Ha Hb). apply sumR_ext. intros k Hk. now rewrite mat_of_entry.
  - intros d C (W & Hr & Hc & HS & HP). subst d. unfold lup_any. destruct (proj2 inverse_any_exact C) as (B & ->); [|eauto]. apply (regular_inj C (nrows C)); auto. now apply pd_inj.
Qed.
Lemma lup_any_det d : lup_det d (det d) lup_any.
Proof. intros C dt Ci HC H. unfold lup_any in H. destruct (inverse_any C); [|discriminate]. apply Ok_inj in H. injection H as <- _. destruct HC as (_ & -> & _). reflexivity. Qed.
Theorem exact_lup_exists : exists lup (D : nat -> (nat -> nat -> R) -> R), lup_exact lup /\ forall d, determinant d (D d) /\ lup_det d (D d) lup.
Proof. exists lup_any, det. split; [exact lup_any_exact|]. intro d. split; [apply det_determinant|apply lup_any_det]. Qed.
