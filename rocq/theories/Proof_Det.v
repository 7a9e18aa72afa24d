(** Determinants exist in every size.  A form is a function on subsets of the coordinates, a subset is a list of
    booleans whose head speaks of the largest coordinate. *)
From Coq Require Import List Arith Reals Lra Lia Bool FunctionalExtensionality.
From Verif Require Import Base BaseLemmas Num NumFn Linalg Spec_Calc Proof_KMeans MatR Spec_GMM.
Import ListNotations.
Local Open Scope R_scope.

(** Multiplication by a vector from the left. *)
Fixpoint wedge (l : list bool) (v : nat -> R) (w : list bool -> R) : R :=
  match l with
  | [] => 0
  | false :: l' => wedge l' v (fun m => w (false :: m))
  | true :: l' => v (length l') * w (false :: l') - wedge l' v (fun m => w (true :: m))
  end.
Lemma wedge_ext l : forall v v' w w', (forall i, (i < length l)%nat -> v i = v' i) -> (forall m, length m = length l -> w m = w' m) -> wedge l v w = wedge l v' w'.
Proof.
  induction l as [|b l IH]; intros v v' w w' Hv Hw; cbn [wedge]; [reflexivity|]. cbn [length] in *. destruct b.
  - rewrite Hv, (Hw (false :: l)) by (cbn; lia). f_equal. apply IH; intros; [apply Hv; lia|apply Hw; cbn; lia].
  - apply IH; intros; [apply Hv; lia|apply Hw; cbn; lia].
Qed.
Lemma wedge_lin l : forall v a c w u, wedge l v (fun m => a * w m + c * u m) = a * wedge l v w + c * wedge l v u.
Proof.
  induction l as [|b l IH]; intros v a c w u; cbn [wedge]; [ring|]. destruct b.
  - rewrite (IH v a c (fun m => w (true :: m)) (fun m => u (true :: m))). ring.
  - apply (IH v a c (fun m => w (false :: m)) (fun m => u (false :: m))).
Qed.
Lemma wedge_0 l v w : (forall m, length m = length l -> w m = 0) -> wedge l v w = 0.
Proof. intro H. rewrite (wedge_ext l v v w (fun m => 0 * w m + 0 * w m)) by (auto; intros; rewrite H by auto; ring). rewrite wedge_lin. ring. Qed.
Lemma wedge_lin_v l : forall v v' a c w, wedge l (fun i => a * v i + c * v' i) w = a * wedge l v w + c * wedge l v' w.
Proof. induction l as [|b l IH]; intros v v' a c w; cbn [wedge]; [ring|]. destruct b; rewrite IH; ring. Qed.
Lemma wedge_anti l : forall u v w, wedge l u (fun m => wedge m v w) = - wedge l v (fun m => wedge m u w).
Proof.
  induction l as [|b l IH]; intros u v w; cbn [wedge]; [ring|]. destruct b.
  - assert (E : forall a c, wedge l a (fun m => c (length m) * w (false :: m) - wedge m c (fun k => w (true :: k))) = c (length l) * wedge l a (fun m => w (false :: m)) - wedge l a (fun m => wedge m c (fun k => w (true :: k)))).
    { intros a c. rewrite (wedge_ext l a a _ (fun m => c (length l) * w (false :: m) + (-1) * wedge m c (fun k => w (true :: k)))) by (auto; intros m Hm; rewrite Hm; ring). rewrite wedge_lin. ring. }
    rewrite !E, (IH u v). ring.
  - apply (IH u v (fun k => w (false :: k))).
Qed.
Lemma wedge_nil l v w : wedge l v (fun m => wedge m v w) = 0.
Proof. pose proof (wedge_anti l v v w). lra. Qed.
Lemma wedge_swap l : forall x v c (f : list bool -> list bool -> R), wedge l v (fun m => wedge x c (fun y => f y m)) = wedge x c (fun y => wedge l v (fun m => f y m)).
Proof.
  induction l as [|b l IH]; intros x v c f; cbn [wedge]; [symmetry; now apply wedge_0|]. destruct b.
  - rewrite (IH x v c (fun y m => f y (true :: m))).
    rewrite (wedge_ext x c c (fun y => _ - _) (fun y => v (length l) * f y (false :: l) + (-1) * wedge l v (fun m => f y (true :: m)))) by (auto; intros; ring).
    rewrite wedge_lin. ring.
  - apply (IH x v c (fun y m => f y (false :: m))).
Qed.

Definition one (l : list bool) : R := if forallb negb l then 1 else 0.
(** The product of the first rows. *)
Fixpoint wprod (A : nat -> nat -> R) (k : nat) (l : list bool) : R := match k with O => one l | S k' => wedge l (A k') (wprod A k') end.
Definition det (n : nat) (A : nat -> nat -> R) : R := wprod A n (repeat true n).

Lemma wprod_ext A B k : forall l, (forall i j, (i < k)%nat -> (j < length l)%nat -> A i j = B i j) -> wprod A k l = wprod B k l.
Proof. induction k as [|k IH]; intros l H; cbn [wprod]; [reflexivity|]. apply wedge_ext; [intros; apply H; lia|]. intros m Hm. apply IH. intros i j Hi Hj. apply H; lia. Qed.
Lemma det_ext n A B : (forall i j, (i < n)%nat -> (j < n)%nat -> A i j = B i j) -> det n A = det n B.
Proof. intro H. apply wprod_ext. intros i j Hi Hj. rewrite repeat_length in Hj. auto. Qed.

(** Triangular matrices. *)
Lemma wprod_false A k : forall l, wprod A k (false :: l) = wprod A k l.
Proof. induction k as [|k IH]; intro l; cbn [wprod wedge]; [reflexivity|]. apply wedge_ext; auto. Qed.
Lemma wprod_true_0 A k : forall l, (forall i, (i < k)%nat -> A i (length l) = 0) -> wprod A k (true :: l) = 0.
Proof.
  induction k as [|k IH]; intros l H; cbn [wprod wedge]; [reflexivity|]. rewrite H by lia. rewrite wedge_0; [ring|]. intros m Hm. apply IH. intros i Hi. rewrite Hm. apply H. lia.
Qed.
Lemma det_lower n A : (forall i j, (i < j)%nat -> (j < n)%nat -> A i j = 0) -> det n A = prodR n (fun i => A i i).
Proof.
  induction n as [|n IH]; intro H; [reflexivity|]. unfold det. cbn [wprod repeat wedge prodR]. rewrite repeat_length, wprod_false.
  rewrite wedge_0. { fold (det n A). rewrite IH; [ring|]. intros; apply H; lia. }
  intros m Hm. apply wprod_true_0. intros i Hi. rewrite Hm, repeat_length. apply H; lia.
Qed.

(** Minors, and that they may be expanded on either side. *)
Fixpoint minor (A : nat -> nat -> R) (x l : list bool) : R :=
  match x with [] => one l | false :: x' => minor A x' l | true :: x' => wedge l (A (length x')) (minor A x') end.
Lemma minor_top A k l : minor A (repeat true k) l = wprod A k l.
Proof. revert l. induction k as [|k IH]; intro l; cbn [repeat minor wprod]; [reflexivity|]. rewrite repeat_length. apply wedge_ext; auto. Qed.
Lemma minor_false A x : forall l, minor A x (false :: l) = minor A x l.
Proof. induction x as [|[] x IH]; intro l; cbn [minor wedge]; auto. apply wedge_ext; auto. Qed.
Lemma minor_true A x : forall l, minor A x (true :: l) = wedge x (fun i => A i (length l)) (fun y => minor A y l).
Proof.
  induction x as [|[] x IH]; intro l; cbn [minor wedge].
  - reflexivity.
  - rewrite minor_false. f_equal. rewrite (wedge_ext l _ (A (length x)) _ (fun m => wedge x (fun i => A i (length l)) (fun y => minor A y m))) by (auto; intros m Hm; rewrite IH, Hm; reflexivity).
    rewrite wedge_swap. apply wedge_ext; auto. intros y Hy. rewrite <- Hy. reflexivity.
  - apply IH.
Qed.
Lemma minor_sym A l : forall x, minor A x l = minor (fun i j => A j i) l x.
Proof.
  induction l as [|[] l IH]; intro x; cbn [minor].
  - induction x as [|[] x IHx]; cbn; auto.
  - rewrite minor_true. apply wedge_ext; auto.
  - now rewrite minor_false.
Qed.
Lemma det_transpose n A : det n (fun i j => A j i) = det n A.
Proof. unfold det. rewrite <- !minor_top. symmetry. apply minor_sym. Qed.

(** Products: the rows of [B] as a substitution for the coordinates. *)
Fixpoint subst (B : nat -> nat -> R) (m : nat) (w : list bool -> R) (l : list bool) : R :=
  match m with O => w [] * one l | S m' => subst B m' (fun x => w (false :: x)) l + wedge l (B m') (subst B m' (fun x => w (true :: x))) end.
Lemma subst_ext B m : forall w w' l, (forall x, length x = m -> w x = w' x) -> subst B m w l = subst B m w' l.
Proof.
  induction m as [|m IH]; intros w w' l H; cbn [subst]; [now rewrite H|]. f_equal; [apply IH; intros; apply H; cbn; lia|].
  apply wedge_ext; auto. intros; apply IH; intros; apply H; cbn; lia.
Qed.
Lemma subst_lin B m : forall a c w u l, subst B m (fun x => a * w x + c * u x) l = a * subst B m w l + c * subst B m u l.
Proof.
  induction m as [|m IH]; intros a c w u l; cbn [subst]; [ring|]. rewrite (IH a c (fun x => w (false :: x)) (fun x => u (false :: x))).
  rewrite (wedge_ext l _ (B m) _ (fun l0 => a * subst B m (fun x => w (true :: x)) l0 + c * subst B m (fun x => u (true :: x)) l0)) by (auto; intros; apply (IH a c (fun x => w (true :: x)) (fun x => u (true :: x)))).
  rewrite wedge_lin. ring.
Qed.
Lemma subst_0 B m w l : (forall x, length x = m -> w x = 0) -> subst B m w l = 0.
Proof. intro H. rewrite (subst_ext B m w (fun x => 0 * w x + 0 * w x)) by (intros; rewrite H by auto; ring). rewrite subst_lin. ring. Qed.
Lemma subst_wedge B m : forall v w l, subst B m (fun x => wedge x v w) l = wedge l (fun j => sumR m (fun k => v k * B k j)) (subst B m w).
Proof.
  induction m as [|m IH]; intros v w l.
  - cbn [subst wedge sumR]. rewrite Rmult_0_l. symmetry. rewrite (wedge_ext l _ (fun i => 0 * 0 + 0 * 0) _ (fun l => w [] * one l)) by (auto; intros; ring). rewrite (wedge_lin_v l (fun _ => 0) (fun _ => 0)). ring.
  - set (u := fun j => sumR m (fun k => v k * B k j)) in *.
    rewrite (wedge_ext l (fun j => sumR (S m) (fun k => v k * B k j)) (fun j => 1 * u j + v m * B m j) (subst B (S m) w) (fun l0 => 1 * subst B m (fun x => w (false :: x)) l0 + 1 * wedge l0 (B m) (subst B m (fun x => w (true :: x))))).
    2:{ intros i _. cbn [sumR]. fold (u i). ring. } 2:{ intros m0 _. cbn [subst]. ring. }
    rewrite wedge_lin_v, !wedge_lin, wedge_nil, (wedge_anti l u (B m)). cbn [subst wedge]. rewrite IH. fold u.
    rewrite (wedge_ext l (B m) (B m) (subst B m (fun x => v (length x) * w (false :: x) - wedge x v (fun m0 => w (true :: m0)))) (fun l0 => v m * subst B m (fun x => w (false :: x)) l0 + (-1) * wedge l0 u (subst B m (fun x => w (true :: x))))).
    2: auto. 2:{ intros l0 _. rewrite (subst_ext B m _ (fun x => v m * w (false :: x) + (-1) * wedge x v (fun y => w (true :: y)))) by (intros x Hx; rewrite Hx; ring). rewrite subst_lin, IH. reflexivity. }
    rewrite wedge_lin. ring.
Qed.
Lemma subst_one B m : forall l, subst B m one l = one l.
Proof.
  induction m as [|m IH]; intro l; cbn [subst]; [unfold one at 1; cbn; ring|].
  rewrite (subst_ext B m (fun x => one (false :: x)) one) by reflexivity. rewrite IH. rewrite wedge_0; [ring|]. intros m0 _. apply subst_0. reflexivity.
Qed.
Lemma subst_wprod n A B k : forall l, subst B n (wprod A k) l = wprod (mprod n A B) k l.
Proof. induction k as [|k IH]; intro l; cbn [wprod]; [apply subst_one|]. rewrite subst_wedge. apply wedge_ext; auto. Qed.
Definition top (l : list bool) : R := if forallb (fun b => b) l then 1 else 0.
Lemma subst_top B m : forall l, subst B m top l = wprod B m l.
Proof.
  induction m as [|m IH]; intro l; cbn [subst wprod]; [unfold top; cbn; ring|]. rewrite subst_0 by reflexivity. rewrite Rplus_0_l. apply wedge_ext; auto.
Qed.
Lemma wedge_degree l : forall k v w, (forall m, length m = length l -> count_occ bool_dec m true <> k -> w m = 0) -> count_occ bool_dec l true <> S k -> wedge l v w = 0.
Proof.
  induction l as [|[] l IH]; intros k v w H N; cbn [wedge]; [reflexivity| |].
  - rewrite count_occ_cons_eq in N by reflexivity. rewrite (H (false :: l)); [|reflexivity|rewrite count_occ_cons_neq by discriminate; lia].
    destruct k as [|k].
    + rewrite wedge_0; [ring|]. intros m Hm. apply H; [cbn; lia|]. rewrite count_occ_cons_eq by reflexivity. discriminate.
    + rewrite (IH k); [ring| |lia]. intros m Hm Hk. apply H; [cbn; lia|]. rewrite count_occ_cons_eq by reflexivity. lia.
  - rewrite count_occ_cons_neq in N by discriminate. apply (IH k); [|exact N]. intros m Hm Hk. apply H; [cbn; lia|]. rewrite count_occ_cons_neq by discriminate. exact Hk.
Qed.
Lemma wprod_degree A k : forall l, count_occ bool_dec l true <> k -> wprod A k l = 0.
Proof.
  induction k as [|k IH]; intros l H; cbn [wprod].
  - unfold one. destruct (forallb negb l) eqn:E; [|reflexivity]. exfalso. apply H. apply count_occ_not_In. intro K. rewrite forallb_forall in E. now specialize (E _ K).
  - apply (wedge_degree l k); auto.
Qed.
Lemma wprod_top n A l : length l = n -> wprod A n l = det n A * top l.
Proof.
  intro Hl. unfold top. destruct (forallb (fun b => b) l) eqn:E.
  - replace l with (repeat true n). { unfold det. ring. } rewrite forallb_forall in E. subst n. clear -E. induction l as [|b l IH]; cbn; [reflexivity|].
    rewrite (E b) by now left. f_equal. apply IH. intros; apply E; now right.
  - rewrite Rmult_0_r. apply wprod_degree. intro K. assert (forallb (fun b => b) l = true); [|congruence]. clear E. revert n Hl K. induction l as [|b l IH]; intros n Hl K; [reflexivity|]. cbn [length] in Hl.
    pose proof (count_occ_bound bool_dec true l) as Q. destruct b; cbn [forallb].
    + rewrite count_occ_cons_eq in K by reflexivity. apply (IH (length l)); lia.
    + rewrite count_occ_cons_neq in K by discriminate. lia.
Qed.
Theorem det_mult n A B : det n (mprod n A B) = det n A * det n B.
Proof.
  unfold det at 1. rewrite <- subst_wprod. rewrite (subst_ext B n _ (fun x => det n A * top x + 0 * top x)) by (intros x Hx; rewrite wprod_top by auto; ring).
  rewrite subst_lin, subst_top. fold (det n B). ring.
Qed.
Theorem det_determinant n : determinant n (det n).
Proof. split; [exact (det_ext n)|]. split; [exact (det_mult n)|]. split; [exact (det_transpose n)|]. exact (det_lower n). Qed.
