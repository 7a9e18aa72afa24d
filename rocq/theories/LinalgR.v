(** * Facts about the vector operations over the reals *)
From Coq Require Import List Arith Bool Reals Lra Lia.
From Verif Require Import Base BaseLemmas Num Linalg.
Import ListNotations.
Local Open Scope R_scope.

Fixpoint rsum (l : list R) : R := match l with [] => 0 | x :: l' => x + rsum l' end.

Lemma fold_left_Rplus l a : fold_left Rplus l a = a + rsum l.
Proof. revert a; induction l as [|x l IH]; intros a; simpl; [lra|]. rewrite IH. lra. Qed.
Lemma vsum_R (l : list R) : vsum l = rsum l.
Proof. unfold vsum. simpl. rewrite fold_left_Rplus. lra. Qed.
Lemma dot_nil_l (v : list R) : dot [] v = 0. Proof. reflexivity. Qed.
Lemma dot_nil_r (v : list R) : dot v [] = 0. Proof. destruct v; reflexivity. Qed.
Lemma dot_cons (x y : R) u v : dot (x :: u) (y :: v) = x * y + dot u v.
Proof. unfold dot. rewrite !vsum_R. reflexivity. Qed.
Lemma dot_comm (u v : list R) : dot u v = dot v u.
Proof. revert v; induction u as [|x u IH]; intros [|y v]; auto. rewrite !dot_cons, IH. lra. Qed.
Lemma dot_ge0 (u : list R) : 0 <= dot u u.
Proof. induction u as [|x u IH]; [unfold dot; simpl; unfold vsum; simpl; lra|]. rewrite dot_cons. nra. Qed.
Lemma dot_self_0 (u : list R) : dot u u = 0 -> Forall (fun x => x = 0) u.
Proof.
  induction u as [|x u IH]; intros H; auto. rewrite dot_cons in H. pose proof (dot_ge0 u).
  constructor; [nra|]. apply IH. nra.
Qed.
Lemma dot_zeros_l (u v : list R) : Forall (fun x => x = 0) u -> dot u v = 0.
Proof.
  intros H; revert v; induction H as [|x u -> H IH]; intros [|y v]; auto using dot_nil_r.
  rewrite dot_cons, IH. lra.
Qed.
Lemma dot_vadd_l (u v w : list R) : length u = length v -> dot (vadd u v) w = dot u w + dot v w.
Proof.
  revert v w; induction u as [|x u IH]; intros [|y v] [|z w] H; simpl in H; try discriminate;
    rewrite ?dot_nil_l, ?dot_nil_r; try lra.
  change (vadd (x :: u) (y :: v)) with ((x + y) :: vadd u v). rewrite !dot_cons, IH by lia. lra.
Qed.
Lemma dot_vsub_l (u v w : list R) : length u = length v -> dot (vsub u v) w = dot u w - dot v w.
Proof.
  revert v w; induction u as [|x u IH]; intros [|y v] [|z w] H; simpl in H; try discriminate;
    rewrite ?dot_nil_l, ?dot_nil_r; try lra.
  change (vsub (x :: u) (y :: v)) with ((x - y) :: vsub u v). rewrite !dot_cons, IH by lia. lra.
Qed.
Lemma dot_vscale_l c (u w : list R) : dot (vscale c u) w = c * dot u w.
Proof.
  revert w; induction u as [|x u IH]; intros [|z w]; change (vscale c []) with (@nil R);
    rewrite ?dot_nil_l, ?dot_nil_r; try lra.
  - change (vscale c (x :: u)) with ((x * c) :: vscale c u). rewrite !dot_cons, IH. lra.
Qed.
Lemma map2_length {A B C} (f : A -> B -> C) xs ys : length (map2 f xs ys) = min (length xs) (length ys).
Proof. revert ys; induction xs as [|x xs IH]; intros [|y ys]; simpl; auto. Qed.
Lemma map2_map {A B C A' B'} (f : A -> B -> C) (g : A' -> A) (h : B' -> B) xs ys :
  map2 f (map g xs) (map h ys) = map2 (fun x y => f (g x) (h y)) xs ys.
Proof. revert ys; induction xs as [|x xs IH]; intros [|y ys]; simpl; auto. rewrite IH. auto. Qed.
Lemma map_map2 {A B C D} (g : C -> D) (f : A -> B -> C) xs ys :
  map g (map2 f xs ys) = map2 (fun x y => g (f x y)) xs ys.
Proof. revert ys; induction xs as [|x xs IH]; intros [|y ys]; simpl; auto. rewrite IH. auto. Qed.
Lemma map2_nth {A B C} (f : A -> B -> C) xs ys i da db dc : (i < length xs)%nat -> (i < length ys)%nat ->
  nth i (map2 f xs ys) dc = f (nth i xs da) (nth i ys db).
Proof.
  revert ys i; induction xs as [|x xs IH]; intros [|y ys] [|i] H1 H2; simpl in *; try lia; auto.
  apply IH; lia.
Qed.
Lemma map2_nth_error {A B C} (f : A -> B -> C) xs ys i :
  nth_error (map2 f xs ys) i =
  match nth_error xs i, nth_error ys i with Some a, Some b => Some (f a b) | _, _ => None end.
Proof.
  revert ys i; induction xs as [|x xs IH]; intros [|y ys] [|i]; simpl; auto.
  - destruct (nth_error xs i); auto.
Qed.
Lemma rsum_app a b : rsum (a ++ b) = rsum a + rsum b.
Proof. induction a as [|x a IH]; simpl; [lra|]. rewrite IH. lra. Qed.
Lemma rsum_ge0 l : Forall (fun x => 0 <= x) l -> 0 <= rsum l.
Proof. induction 1; simpl; lra. Qed.
Lemma rsum_ge0_0 l : Forall (fun x => 0 <= x) l -> rsum l = 0 -> Forall (fun x => x = 0) l.
Proof.
  induction 1 as [|x l Hx H IH]; simpl; intros E; auto. pose proof (rsum_ge0 l H).
  constructor; [lra|]. apply IH; lra.
Qed.
Lemma rsum_map_plus {A} (f g : A -> R) l : rsum (map (fun x => f x + g x) l) = rsum (map f l) + rsum (map g l).
Proof. induction l; simpl; lra. Qed.
Lemma rsum_map_minus {A} (f g : A -> R) l : rsum (map (fun x => f x - g x) l) = rsum (map f l) - rsum (map g l).
Proof. induction l; simpl; lra. Qed.
Lemma rsum_map_scal {A} c (f : A -> R) l : rsum (map (fun x => c * f x) l) = c * rsum (map f l).
Proof. induction l; simpl; lra. Qed.
Lemma rsum_map_const {A} c (l : list A) : rsum (map (fun _ => c) l) = c * INR (length l).
Proof. induction l as [|x l IH]; [simpl; lra|]. cbn [map rsum length]. rewrite IH, S_INR. lra. Qed.
Lemma rsum_map_ext {A} (f g : A -> R) l : (forall x, In x l -> f x = g x) -> rsum (map f l) = rsum (map g l).
Proof. intros H; induction l; simpl; auto. rewrite IHl, (H a); simpl; auto. intros; apply H; simpl; auto. Qed.
Lemma rsum_map_le {A} (f g : A -> R) l : (forall x, In x l -> f x <= g x) -> rsum (map f l) <= rsum (map g l).
Proof.
  intros H; induction l; simpl; [lra|]. assert (f a <= g a) by (apply H; simpl; auto).
  assert (rsum (map f l) <= rsum (map g l)) by (apply IHl; intros; apply H; simpl; auto). lra.
Qed.
Lemma rsum_exchange {A B} (f : A -> B -> R) la lb :
  rsum (map (fun a => rsum (map (f a) lb)) la) = rsum (map (fun b => rsum (map (fun a => f a b) la)) lb).
Proof.
  induction la as [|a la IH]; simpl.
  - rewrite rsum_map_const. lra.
  - rewrite IH, <- rsum_map_plus. auto.
Qed.
Lemma map2_combine {A B C} (f : A -> B -> C) xs ys :
  map2 f xs ys = map (fun p => f (fst p) (snd p)) (combine xs ys).
Proof. revert ys; induction xs as [|x xs IH]; intros [|y ys]; simpl; auto. rewrite IH. auto. Qed.
Lemma dot_rsum (u v : list R) : dot u v = rsum (map2 Rmult u v).
Proof. unfold dot. rewrite vsum_R. reflexivity. Qed.
Lemma rsum_nth (l : list R) : rsum l = sumR (length l) (fun i => nth i l 0).
Proof.
  induction l as [|x l IH] using rev_ind; simpl; auto.
  rewrite rsum_app, app_length. simpl. rewrite Nat.add_1_r. cbn [sumR].
  rewrite app_nth2, Nat.sub_diag by lia. simpl. rewrite Rplus_0_r. f_equal.
  rewrite IH. apply sumR_ext. intros i Hi. rewrite app_nth1 by lia. auto.
Qed.
Lemma nth_map_seq {A} (f : nat -> A) k i d : (i < k)%nat -> nth i (map f (seq 0 k)) d = f i.
Proof. intros H. rewrite (nth_indep _ d (f 0%nat)) by (now rewrite map_length, seq_length). rewrite map_nth, seq_nth by auto. reflexivity. Qed.

Lemma nth_map {A B} (f : A -> B) l i d d' : (i < length l)%nat -> nth i (map f l) d = f (nth i l d').
Proof. intros H. rewrite (nth_indep _ d (f d')) by (now rewrite map_length). apply map_nth. Qed.
