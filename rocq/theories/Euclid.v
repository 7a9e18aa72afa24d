(** * Euclidean distance on lists of reals: Cauchy-Schwarz and the triangle inequality *)
From Coq Require Import List Arith Lia Bool Reals Lra Psatz.
From Verif Require Import Base BaseLemmas Num Linalg LinalgR.
Import ListNotations.
Local Open Scope R_scope.

Lemma cauchy (u v : list R) : dot u v * dot u v <= dot u u * dot v v.
Proof.
  revert v; induction u as [|x u IH]; intros [|y v]; rewrite ?dot_nil_l, ?dot_nil_r; try lra.
  rewrite !dot_cons. specialize (IH v). pose proof (dot_ge0 u) as A. pose proof (dot_ge0 v) as B.
  set (a := dot u u) in *. set (b := dot v v) in *. set (d := dot u v) in *.
  assert (H : 2 * (x * y) * d <= x * x * b + y * y * a).
  { assert (T : 0 <= x * x * b + y * y * a).
    { assert (0 <= x * x) by nra. assert (0 <= y * y) by nra. pose proof (Rmult_le_pos _ _ H B). pose proof (Rmult_le_pos _ _ H0 A). lra. }
    assert (Q : Rsqr (2 * (x * y) * d) <= Rsqr (x * x * b + y * y * a)).
    { unfold Rsqr. assert ((x * y) * (x * y) * (d * d) <= (x * y) * (x * y) * (a * b)).
      { apply Rmult_le_compat_l; [apply Rle_0_sqr|exact IH]. }
      pose proof (Rle_0_sqr (x * x * b - y * y * a)) as H0. unfold Rsqr in H0.
      replace (2 * (x * y) * d * (2 * (x * y) * d)) with (4 * (x * y * (x * y) * (d * d))) by ring.
      replace ((x * x * b + y * y * a) * (x * x * b + y * y * a))
        with (4 * (x * y * (x * y) * (a * b)) + (x * x * b - y * y * a) * (x * x * b - y * y * a)) by ring. lra. }
    apply Rsqr_incr_0_var in Q; auto. }
  nra.
Qed.
Lemma cauchy_sqrt (u v : list R) : dot u v <= sqrt (dot u u) * sqrt (dot v v).
Proof.
  rewrite <- sqrt_mult_alt by apply dot_ge0. destruct (Rle_lt_dec (dot u v) 0).
  - eapply Rle_trans; [exact r|]. apply sqrt_pos.
  - rewrite <- (sqrt_square (dot u v)) by lra. apply sqrt_le_1_alt. apply cauchy.
Qed.
Lemma minkowski (u v : list R) : length u = length v ->
  sqrt (dot (vadd u v) (vadd u v)) <= sqrt (dot u u) + sqrt (dot v v).
Proof.
  intros L. assert (P1 := sqrt_pos (dot u u)). assert (P2 := sqrt_pos (dot v v)).
  rewrite <- (sqrt_square (sqrt (dot u u) + sqrt (dot v v))) by lra. apply sqrt_le_1_alt.
  rewrite dot_vadd_l by auto. rewrite (dot_comm u), (dot_comm v), !dot_vadd_l by auto. rewrite (dot_comm v u).
  pose proof (cauchy_sqrt u v). pose proof (sqrt_sqrt _ (dot_ge0 u)). pose proof (sqrt_sqrt _ (dot_ge0 v)). nra.
Qed.

(** Squared distance. *)
Definition d2 (a b : list R) : R := dot (vsub a b) (vsub a b).
Lemma vsub_length (a b : list R) : length a = length b -> length (vsub a b) = length a.
Proof. intros H. unfold vsub. rewrite map2_length. lia. Qed.
Lemma vsub_chain (a b c : list R) : length a = length b -> length b = length c -> vadd (vsub a b) (vsub b c) = vsub a c.
Proof.
  revert b c; induction a as [|x a IH]; intros [|y b] [|z c] H1 H2; try discriminate; auto.
  cbn. f_equal; [lra|]. apply IH; cbn in *; lia.
Qed.
Lemma d2_sym (a b : list R) : d2 a b = d2 b a.
Proof.
  unfold d2, vsub. revert b; induction a as [|x a IH]; intros [|y b]; auto. cbn [map2]. rewrite !dot_cons, IH. cbn [nsub NumR]. lra.
Qed.
Lemma d2_triangle (a b c : list R) : length a = length b -> length b = length c -> sqrt (d2 a c) <= sqrt (d2 a b) + sqrt (d2 b c).
Proof.
  intros H1 H2. unfold d2. rewrite <- (vsub_chain a b c) by auto. apply minkowski. rewrite !vsub_length; congruence.
Qed.
Lemma d2_nonneg a b : 0 <= d2 a b. Proof. apply dot_ge0. Qed.
Lemma d2_sum (a b : list R) : d2 a b = rsum (map2 (fun x y => (x - y) * (x - y)) a b).
Proof. unfold d2, vsub. revert b; induction a as [|x a IH]; intros [|y b]; auto. cbn [map2]. rewrite dot_cons, IH. reflexivity. Qed.
Lemma d2_zero (a b : list R) : length a = length b -> d2 a b = 0 -> a = b.
Proof.
  unfold d2, vsub. revert b; induction a as [|x a IH]; intros [|y b] L H; try discriminate; auto.
  cbn [map2] in H. rewrite dot_cons in H. pose proof (dot_ge0 (map2 nsub a b)). cbn [nsub NumR] in *.
  pose proof (Rle_0_sqr (x - y)) as Q. unfold Rsqr in Q.
  assert (E : (x - y) * (x - y) = 0) by lra. assert (x = y) by (apply Rmult_integral in E; destruct E; lra).
  subst. f_equal. apply IH; [cbn in L; lia|]. lra.
Qed.
Lemma d2_self (a : list R) : d2 a a = 0.
Proof. rewrite d2_sum. induction a; cbn; [auto|]. rewrite IHa. lra. Qed.
