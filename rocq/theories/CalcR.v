(** * Sums with one entry varied *)
From Coq Require Import List Arith Reals Lra Lia Bool.
From Verif Require Import Base Num Linalg LinalgR Spec_Calc.
Import ListNotations.
Local Open Scope R_scope.

Lemma vset_length {A} (v : list A) i x : length (vset v i x) = length v.
Proof. revert i; induction v; intros [|i]; simpl; auto. Qed.
Lemma vset_nth_same {A} (v : list A) i x d : (i < length v)%nat -> nth i (vset v i x) d = x.
Proof. revert i; induction v; intros [|i] H; simpl in *; try lia; auto. apply IHv; lia. Qed.
Lemma vset_nth_other {A} (v : list A) i k x d : k <> i -> nth k (vset v i x) d = nth k v d.
Proof. revert i k; induction v; intros [|i] [|k] H; simpl in *; try lia; auto. Qed.
Lemma vset_self {A} (v : list A) i d : vset v i (nth i v d) = v.
Proof. revert i; induction v; intros [|i]; simpl; auto. rewrite IHv; auto. Qed.
Lemma nth_error_vset {A} (v : list A) i k x :
  nth_error (vset v i x) k = if Nat.eqb k i then match nth_error v k with Some _ => Some x | None => None end else nth_error v k.
Proof.
  revert i k; induction v as [|y v IH]; intros [|i] [|k]; simpl; auto.
  - destruct (Nat.eqb k i); auto.
Qed.

Lemma rsum_vset (l : list R) i x : (i < length l)%nat -> rsum (vset l i x) = rsum l - nth i l 0 + x.
Proof.
  revert i; induction l as [|y l IH]; intros [|i] H; simpl in *; try lia; try lra.
  rewrite IH by lia. lra.
Qed.
Lemma map_vset {A B} (f : A -> B) l i x : map f (vset l i x) = vset (map f l) i (f x).
Proof. revert i; induction l; intros [|i]; simpl; auto. rewrite IHl; auto. Qed.
Lemma map2_vset_l {A B C} (f : A -> B -> C) l m i x d : length l = length m -> (i < length l)%nat ->
  map2 f (vset l i x) m = vset (map2 f l m) i (f x (nth i m d)).
Proof.
  revert m i; induction l as [|y l IH]; intros [|z m] [|i] H Hi; simpl in *; try lia; auto.
  rewrite (IH m i) by lia. auto.
Qed.
Lemma nth_map2_0 (f : R -> R -> R) l m i : length l = length m -> (i < length l)%nat ->
  nth i (map2 f l m) 0 = f (nth i l 0) (nth i m 0).
Proof. intros; apply map2_nth; lia. Qed.

Lemma mset_cols m i j x : mcols (mset m i j x) = mcols m. Proof. reflexivity. Qed.
Lemma mset_nrows m i j x : nrows (mset m i j x) = nrows m.
Proof. unfold nrows, mset; simpl. apply vset_length. Qed.
Lemma mset_wf m i j x : mwf m -> mwf (mset m i j x).
Proof.
  unfold mwf, mset; simpl. intros H. apply Forall_forall. intros r Hr.
  apply In_nth_error in Hr. destruct Hr as [k Hk]. rewrite nth_error_vset in Hk.
  destruct (Nat.eqb_spec k i) as [Ek|Ek].
  - subst k. destruct (nth_error (mrows m) i) eqn:E; [|discriminate]. inversion Hk; subst.
    rewrite vset_length. rewrite Forall_forall in H. apply H.
    rewrite (nth_error_nth _ _ [] E). eapply nth_error_In; eauto.
  - rewrite Forall_forall in H. apply H. eapply nth_error_In; eauto.
Qed.
Lemma mset_self m i j : mset m i j (entry m i j) = m.
Proof. destruct m as [rows c]. unfold mset, entry; simpl. rewrite !vset_self. auto. Qed.

(** The matrix sums used by the models. *)
Definition msumf (m : matrix R) : R := rsum (map rsum (mrows m)).
Lemma msum_R (m : matrix R) : msum m = msumf m.
Proof. unfold msum, msumf. rewrite vsum_R. f_equal. apply map_ext. intros; apply vsum_R. Qed.

Lemma wf_row (m : matrix R) i : mwf m -> (i < nrows m)%nat -> length (nth i (mrows m) []) = mcols m.
Proof. unfold mwf, nrows. rewrite Forall_forall. intros H Hi. apply H. apply nth_In; auto. Qed.

Lemma msumf_mset_zip (f : R -> R -> R) m t i j x :
  mwf m -> mwf t -> nrows m = nrows t -> mcols m = mcols t -> (i < nrows m)%nat -> (j < mcols m)%nat ->
  msumf (mzip f (mset m i j x) t) = msumf (mzip f m t) - f (entry m i j) (entry t i j) + f x (entry t i j).
Proof.
  intros Wm Wt Hr Hc Hi Hj. unfold msumf, mzip, mset; simpl. unfold nrows in *.
  rewrite (map2_vset_l _ _ _ _ _ []) by lia. rewrite map_vset.
  assert (L1 : length (nth i (mrows m) []) = mcols m) by (apply wf_row; auto).
  assert (L2 : length (nth i (mrows t) []) = mcols t) by (apply wf_row; unfold nrows; auto; lia).
  rewrite rsum_vset by (rewrite map_length, map2_length; lia).
  rewrite (map2_vset_l _ _ _ _ _ 0) by lia.
  rewrite rsum_vset by (rewrite map2_length; lia).
  rewrite nth_map2_0 by lia.
  replace (nth i (map rsum (map2 (map2 f) (mrows m) (mrows t))) 0) with (rsum (map2 f (nth i (mrows m) []) (nth i (mrows t) []))).
  - unfold entry. lra.
  - change 0 with (rsum []). rewrite map_nth. f_equal. symmetry. apply map2_nth; lia.
Qed.

Lemma same_shape_true {F} (a b : matrix F) : same_shape a b = true <-> nrows a = nrows b /\ mcols a = mcols b.
Proof. unfold same_shape. rewrite andb_true_iff, !Nat.eqb_eq. tauto. Qed.

Lemma dlim_ext f g x d : (forall y, f y = g y) -> derivable_pt_lim f x d -> derivable_pt_lim g x d.
Proof. intros H D eps He. destruct (D eps He) as [delta Hd]. exists delta. intros h H1 H2. rewrite <- !H. auto. Qed.

