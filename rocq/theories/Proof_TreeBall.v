(** * The ball-tree's distance underestimates over the reals; distances are Euclidean *)
From Coq Require Import List Arith Lia Bool Permutation Reals Lra.
From Verif Require Import Base BaseLemmas Num NumOrd Linalg LinalgR Euclid Spec_Calc CalcR Model_KNN Spec_KNN
  Proof_KNearest Proof_Tree.
Import ListNotations.
Local Open Scope R_scope.

Lemma dist_R (a b : list R) : dist a b = sqrt (d2 a b).
Proof. unfold dist. cbn [nsqrt NumR]. now rewrite vsum_R, d2_sum. Qed.

Lemma fold_right_Rplus (l : list R) : fold_right Rplus 0 l = rsum l.
Proof. induction l; cbn; auto. Qed.
Lemma dist_euclid n (a b : list R) : length a = n -> length b = n -> dist a b = euclid n a b.
Proof.
  intros <- H. rewrite dist_R, d2_sum. unfold euclid. f_equal. etransitivity; [|symmetry; apply fold_right_Rplus]. f_equal.
  revert b H. induction a as [|x a IH]; intros [|y b] H; try discriminate; auto.
  cbn [map2 length seq map]. f_equal; [cbn; ring|]. rewrite IH by (cbn in H; lia). rewrite <- seq_shift, map_map. reflexivity.
Qed.

Lemma rmap_ridx {A} (rows : list A) ids d : (forall i, In i ids -> (i < length rows)%nat) ->
  rmap (ridx rows) ids = Ok (map (fun i => nth i rows d) ids).
Proof.
  induction ids as [|i ids IH]; intros H; cbn; auto. rewrite (ridx_nth _ _ d) by (apply H; now left). cbn [rbind].
  rewrite IH by (intros; apply H; now right). reflexivity.
Qed.

Lemma fold_map2_length {A} (f : A -> A -> A) rows : forall acc n, length acc = n -> (forall r, In r rows -> length r = n) ->
  length (fold_left (fun acc row => map2 f acc row) rows acc) = n.
Proof.
  induction rows as [|r rows IH]; intros acc n L H; cbn; auto. apply IH; [|intros; apply H; now right].
  rewrite map2_length, L, H by (now left). apply Nat.min_id.
Qed.

Lemma ball_radius_spec (c : list R) rows : forall acc,
  let res := fold_left (fun radius row => let d := dist c row in if nltb radius d then d else radius) rows acc in
  acc <= res /\ forall r, In r rows -> dist c r <= res.
Proof.
  induction rows as [|r rows IH]; intros acc; cbn [fold_left]; [split; [cbn; lra|intros ? []]|].
  specialize (IH (if nltb acc (dist c r) then dist c r else acc)). cbn zeta in IH |- *. destruct IH as [A C].
  destruct (nltb acc (dist c r)) eqn:E.
  - apply nltb_R in E. split; [lra|]. intros r' [<-|H]; auto.
  - apply nltb_R_false in E. split; [lra|]. intros r' [<-|H]; auto. lra.
Qed.

Lemma ball_geom_lower (data : matrix R) point : mwf data -> length point = mcols data -> geom_lower ball_split data point.
Proof.
  intros W Lp remains mn mx g E NE L1 L2 Bx. split; [reflexivity|]. intros i Hi. apply nltb_R_false.
  cbn [bs_build ball_split] in E. rewrite (rmap_ridx _ _ []) in E by (intros; now apply Bx). cbn [rbind] in E.
  set (rows := map (fun i => nth i (mrows data) []) remains) in *. inversion E; subst g; clear E. cbn [bs_dist ball_split fst snd].
  set (c := ball_center data rows (length remains)).
  assert (Lr : forall r, In r rows -> length r = mcols data).
  { intros r Hr. apply in_map_iff in Hr. destruct Hr as (i0 & <- & H0). apply row_length; auto. now apply Bx. }
  assert (Lc : length c = mcols data).
  { unfold c, ball_center. rewrite map_length. apply fold_map2_length; auto. apply repeat_length. }
  assert (Hr : In (nth i (mrows data) []) rows) by (unfold rows; apply in_map_iff; eauto).
  destruct (ball_radius_spec c rows 0) as [R0 R1]. specialize (R1 _ Hr). change (fold_left _ rows 0) with (ball_radius c rows) in R0, R1.
  assert (T := d2_triangle c (nth i (mrows data) []) point). rewrite Lc, (Lr _ Hr) in T. specialize (T eq_refl (eq_sym Lp)).
  rewrite <- !dist_R in T. unfold rowdist. rewrite (dist_R point), d2_sym, <- dist_R.
  destruct (nltb (dist c point) (ball_radius c rows)) eqn:C.
  - cbn [nzero NumR]. rewrite dist_R. apply sqrt_pos.
  - cbn [nsub NumR]. lra.
Qed.

Definition bs_total {F G} {N : Num F} (B : BinarySplit (F := F) G) (data : matrix F) : Prop :=
  forall remains mn mx, (forall i, In i remains -> (i < nrows data)%nat) -> exists g, bs_build B data remains mn mx = Ok g.
Lemma kd_total {F} {N : Num F} (data : matrix F) : bs_total kd_split data.
Proof. intros remains mn mx H. cbn. eauto. Qed.
Lemma ball_total {F} {N : Num F} (data : matrix F) : bs_total ball_split data.
Proof. intros remains mn mx H. cbn. rewrite (rmap_ridx _ _ []) by auto. cbn. eauto. Qed.
