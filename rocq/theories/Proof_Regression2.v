(** Lemmas for [Props_Regression]: gradient descent on the least-squares cost. *)
From Coq Require Import List Arith Lia Bool Reals Lra.
From Verif Require Import Base BaseLemmas Num NumFn Linalg LinalgR Spec_Calc CalcR MatR Proof_KMeans Model_Cost Proof_Cost
  Model_Toolkit Proof_Toolkit Model_Optim Spec_Optim Proof_Optim Proof_Optim2 Model_Regression Spec_Regression Proof_Regression.
Import ListNotations.
Local Open Scope R_scope.

Definition ls_cost (Z : matrix R) (y p : list R) : R := dot (vsub (mat_vec Z p) y) (vsub (mat_vec Z p) y) / (2 * INR (nrows Z)).
Definition ls_grad (Z : matrix R) (y p : list R) : list R :=
  map (fun x => x / INR (nrows Z)) (mat_vec (transpose Z) (vsub (mat_vec Z p) y)).

Lemma lr_compute_grad_R Z y q : mwf Z -> length y = nrows Z -> length q = mcols Z ->
  lr_compute_grad Z y q = Ok (ls_cost Z y q, ls_grad Z y q).
Proof.
  intros W Ly Lq. unfold lr_compute_grad. rewrite rmat_vec_eq by auto. cbn [rbind].
  rewrite (mse_vec_sum _ _ (nrows Z)) by (rewrite ?mat_vec_length'; auto). cbn [rbind].
  rewrite rvsub_eq by (rewrite mat_vec_length'; auto). cbn [rbind].
  rewrite rmat_vec_eq by (rewrite vsub_len'; rewrite mat_vec_length'; auto). cbn [rbind]. f_equal. f_equal.
  unfold ls_cost. f_equal. rewrite (dot_sumR (nrows Z)) by (rewrite vsub_len'; rewrite mat_vec_length'; auto).
  apply sumR_ext. intros i Hi. unfold vsub. rewrite (map2_nth nsub _ _ i 0 0 0) by (rewrite ?mat_vec_length'; lia).
  cbn [nsub NumR]. ring.
Qed.

Lemma ls_grad_dot Z y p d : mwf Z -> length y = nrows Z -> length d = mcols Z ->
  dot (ls_grad Z y p) d = dot (vsub (mat_vec Z p) y) (mat_vec Z d) / INR (nrows Z).
Proof.
  intros W Ly Ld. rewrite dot_transpose by (auto; rewrite vsub_len'; rewrite mat_vec_length'; auto).
  unfold ls_grad, Rdiv. generalize (mat_vec (transpose Z) (vsub (mat_vec Z p) y)). intros l.
  rewrite Rmult_comm, <- dot_vscale_l. reflexivity.
Qed.

Lemma ls_smooth Z y L : mwf Z -> (0 < nrows Z)%nat -> length y = nrows Z ->
  (forall v, length v = mcols Z -> dot (mat_vec Z v) (mat_vec Z v) <= L * INR (nrows Z) * dot v v) ->
  smooth (mcols Z) (ls_cost Z y) (ls_grad Z y) L.
Proof.
  intros W Hn Ly HL x Lx. split.
  - unfold ls_grad. rewrite map_length, mat_vec_length', transpose_nrows. reflexivity.
  - intros q Lq. set (d := vsub q x). assert (Ld : length d = mcols Z) by (unfold d; rewrite vsub_len'; lia).
    rewrite ls_grad_dot by auto. unfold ls_cost.
    assert (E : vsub (mat_vec Z q) y = vadd (mat_vec Z d) (vsub (mat_vec Z x) y)).
    { unfold d. rewrite mat_vec_vsub by lia. symmetry. apply vsub_vsub_vadd; rewrite ?mat_vec_length'; auto. }
    rewrite E. specialize (HL d Ld). set (r := vsub (mat_vec Z x) y) in *. set (z := mat_vec Z d) in *.
    assert (Lr : length r = nrows Z) by (unfold r; rewrite vsub_len'; rewrite mat_vec_length'; auto).
    assert (Lz : length z = nrows Z) by apply mat_vec_length'.
    rewrite dot_vadd_l by lia. rewrite !(dot_comm _ (vadd z r)), !dot_vadd_l by lia.
    rewrite (dot_comm z r).
    assert (P : 0 < INR (nrows Z)) by (apply lt_0_INR; auto). set (m := INR (nrows Z)) in *.
    apply Rmult_le_reg_r with (2 * m); [lra|].
    replace ((dot z z + dot r z + (dot r z + dot r r)) / (2 * m) * (2 * m)) with (dot z z + 2 * dot r z + dot r r) by (field; lra).
    replace ((dot r r / (2 * m) + dot r z / m + L / 2 * dot d d) * (2 * m)) with (dot r r + 2 * dot r z + L * m * dot d d) by (field; lra).
    lra.
Qed.

Lemma rss_cost X y p : mwf X -> length y = nrows X -> length p = S (mcols X) -> (0 < nrows X)%nat ->
  rss X y p = 2 * INR (nrows X) * ls_cost (with_ones X) y p.
Proof.
  intros W Ly Lp Hn. rewrite rss_dot by auto. unfold ls_cost. rewrite with_ones_nrows.
  assert (P : 0 < INR (nrows X)) by (apply lt_0_INR; auto).
  replace (2 * INR (nrows X) * (dot (vsub (mat_vec (with_ones X) p) y) (vsub (mat_vec (with_ones X) p) y) / (2 * INR (nrows X))))
    with (dot (vsub (mat_vec (with_ones X) p) y) (vsub (mat_vec (with_ones X) p) y)) by (field; lra).
  apply Euclid.d2_sym.
Qed.

Lemma dot_repeat0 n v : dot (repeat 0 n) v = 0.
Proof. apply dot_zeros_l. apply Forall_forall. intros x Hx. apply repeat_spec in Hx. auto. Qed.

Theorem lr_gd_no_worse self X y self' L : mwf X -> (0 < nrows X)%nat -> length y = nrows X ->
  (forall v, length v = S (mcols X) -> dot (mat_vec (with_ones X) v) (mat_vec (with_ones X) v) <= L * INR (nrows X) * dot v v) ->
  3 / 10 * L <= 1 -> lr_train_with_optimization self X y = (self', Ok tt) ->
  exists p, lr_parameters self' = Some p /\ length p = S (mcols X) /\ rss X y p <= rss X y (repeat 0 (S (mcols X))).
Proof.
  intros W Hn Ly HL HA H. unfold lr_train_with_optimization in H.
  destruct (gd_optimize _ _ _) as [w| |] eqn:E; inversion H; subst self'. exists w. split; [reflexivity|].
  pose proof (with_ones_wf X W) as WZ.
  assert (K : ls_cost (with_ones X) y w <= ls_cost (with_ones X) y (repeat 0 (S (mcols X))) /\ length w = S (mcols X)).
  { eapply (gd_descent (ls_cost (with_ones X) y) (ls_grad (with_ones X) y) (S (mcols X)) L gd_default (lr_compute_grad (with_ones X) y));
      [..|exact E].
    - apply (ls_smooth (with_ones X)); rewrite ?with_ones_nrows; auto.
    - intros x Lx. apply lr_compute_grad_R; rewrite ?with_ones_nrows; auto.
    - unfold gd_default. cbn. lra.
    - unfold gd_default. cbn. lra.
    - apply repeat_length. }
  destruct K as (K1 & K2). split; [exact K2|].
  rewrite !rss_cost by (auto; rewrite repeat_length; auto).
  apply Rmult_le_compat_l; [|exact K1]. pose proof (pos_INR (nrows X)). lra.
Qed.

(** Divergence. *)
Definition Xd : matrix R := Mat [[10]] 1.
Definition resid (c : R) : R := 101 * c - 1.
Lemma lr_grad_d c : lr_compute_grad (with_ones Xd) [1] [c; 10 * c] = Ok (resid c ^ 2 / 2, [resid c; 10 * resid c]).
Proof.
  rewrite lr_compute_grad_R by (repeat constructor). unfold ls_cost, ls_grad, resid. cbn.
  apply (f_equal (@Ok _)). apply (f_equal2 pair); [field|]. apply (f_equal2 (@cons R)); [field|]. apply (f_equal2 (@cons R)); [field|reflexivity].
Qed.
Lemma gd_diverges n : forall c prev, 1 <= resid c ^ 2 -> prev + 1 / 4 <= resid c ^ 2 / 2 ->
  exists c', gd_loop (3 / 10) (lr_compute_grad (with_ones Xd) [1]) n [c; 10 * c] prev = Ok [c'; 10 * c'] /\
    resid c' ^ 2 = (293 / 10) ^ (2 * n) * resid c ^ 2.
Proof.
  induction n as [|n IH]; intros c prev H1 H2.
  - exists c. split; [reflexivity|]. rewrite Nat.mul_0_r, (pow_O (293 / 10)). ring.
  - cbn [gd_loop]. rewrite lr_grad_d. cbn [rbind].
    assert (E : @nltb R NumR (nabs (nsub prev (resid c ^ 2 / 2))) learning_eps = false).
    { rewrite learning_eps_R. cbn [nltb nabs nsub NumR]. destruct (Rlt_dec _ _) as [K|]; [|reflexivity]. exfalso.
      assert (E : / 10 ^ 20 <= / 10 ^ 2). { apply Rinv_le_contravar; [apply pow_lt; lra|]. apply Rle_pow; [lra|lia]. }
      replace (/ 10 ^ 2) with (1 / 100) in E by (cbn; lra). rewrite Rabs_left in K by lra. lra. }
    rewrite E. unfold rvsub, rassert. cbn [vscale map length Nat.eqb rbind vsub map2].
    set (c1 := c - resid c * (3 / 10)).
    replace (nsub c (nmul (resid c) (3 / 10))) with c1 by reflexivity.
    replace (nsub (10 * c) (nmul (10 * resid c) (3 / 10))) with (10 * c1) by (unfold c1; cbn [nsub nmul NumR]; ring).
    assert (R1 : resid c1 = - (293 / 10) * resid c) by (unfold c1, resid; field).
    destruct (IH c1 (resid c ^ 2 / 2)) as (c' & K1 & K2).
    + rewrite R1. nra.
    + rewrite R1. nra.
    + exists c'. split; [exact K1|]. rewrite K2, R1.
      replace (2 * S n)%nat with (S (S (2 * n))) by lia. cbn [pow]. field.
Qed.
Theorem lr_gd_diverges : exists self' p, lr_train_with_optimization lr_default Xd [1] = (self', Ok tt) /\
  lr_parameters self' = Some p /\ rss Xd [1] [0; 0] = 1 /\ 29 ^ 200 <= rss Xd [1] p.
Proof.
  destruct (gd_diverges 100 0 0) as (c & H1 & H2); [unfold resid; lra|unfold resid; lra|].
  exists {| lr_parameters := Some [c; 10 * c] |}, [c; 10 * c].
  assert (E : gd_optimize gd_default (lr_compute_grad (with_ones Xd) [1]) (repeat nzero (mcols (with_ones Xd))) = Ok [c; 10 * c]).
  { unfold gd_optimize. change (gd_iters (@gd_default R NumR)) with 100%nat.
    replace (gd_alpha (@gd_default R NumR)) with (3 / 10) by (unfold gd_default; cbn; lra).
    cbn [with_ones mcols Xd repeat]. replace (10 * 0) with 0 in H1 by ring. exact H1. }
  split. { unfold lr_train_with_optimization. rewrite E. reflexivity. }
  split; [reflexivity|]. split. { unfold rss, affine. cbn. ring. }
  replace (rss Xd [1] [c; 10 * c]) with (resid c ^ 2) by (unfold rss, affine, resid; cbn; ring).
  rewrite H2. replace (resid 0 ^ 2) with 1 by (unfold resid; ring). rewrite Rmult_1_r.
  change (2 * 100)%nat with 200%nat. apply pow_incr. lra.
Qed.
