(** Gradient descent without convexity, and with strong convexity. *)
From Coq Require Import List Arith Lia Bool Reals Lra.
From Verif Require Import Base BaseLemmas Num NumFn Linalg LinalgR Euclid Spec_Calc CalcR MatR Proof_KMeans Model_Cost Proof_Cost
  Model_Toolkit Proof_Toolkit Model_Optim Spec_Optim Proof_Optim Proof_Optim2 Model_Regression Spec_Regression Proof_Regression Proof_Regression2
  Proof_GLM2 Proof_Converge Proof_Converge2 Spec_GDRate.
Import ListNotations.
Local Open Scope R_scope.

Lemma vstep alpha (x g : list R) : vsub x (vscale alpha g) = map2 (fun a b => a - alpha * b) x g.
Proof.
  unfold vsub, vscale. revert g. induction x as [|a x IH]; intros [|b g]; [reflexivity..|]. cbn [map map2]. rewrite IH.
  cbn [nsub nmul NumR]. f_equal. ring.
Qed.
Lemma len2_dot v : len2 v = dot v v.
Proof. apply sqnorm_dot. Qed.
Lemma dist2_d2 u v : length u = length v -> dist2 u v = d2 u v.
Proof. intros H. symmetry. now apply d2_sqdist. Qed.

Lemma classic_min m (h : nat -> R) : (0 < m)%nat -> exists t, (t < m)%nat /\ forall s, (s < m)%nat -> h t <= h s.
Proof.
  induction m as [|m IH]; [lia|]. intros _. destruct m as [|m].
  - exists 0%nat. split; [lia|]. intros s Hs. replace s with 0%nat by lia. lra.
  - destruct IH as (t & Ht & Hm); [lia|]. destruct (Rle_dec (h t) (h (S m))) as [K|K].
    + exists t. split; [lia|]. intros s Hs. destruct (Nat.eq_dec s (S m)) as [->|]; [exact K|apply Hm; lia].
    + exists (S m). split; [lia|]. intros s Hs. destruct (Nat.eq_dec s (S m)) as [->|]; [lra|]. specialize (Hm s ltac:(lia)). lra.
Qed.

Section Steps.
  Variables (n : nat) (f : list R -> R) (G : list R -> list R) (L alpha : R) (cg : list R -> res (R * list R)).
  Hypothesis Hs : smooth n f G L.
  Hypothesis Hcg : forall x, length x = n -> cg x = Ok (f x, G x).
  Hypothesis A0 : 0 < alpha.
  Hypothesis A1 : alpha * L <= 1.

  Lemma one_step x : length x = n -> let x' := map2 (fun a b => a - alpha * b) x (G x) in
    length x' = n /\ f x' <= f x - alpha / 2 * len2 (G x).
  Proof.
    intros Lx x'. destruct (Hs x Lx) as (LG & _). subst x'. rewrite <- vstep.
    assert (K : gd_next alpha x (G x) (vsub x (vscale alpha (G x)))).
    { split; [lia|]. rewrite vsub_len by (rewrite vscale_length; lia). split; [auto|]. intros j Hj.
      rewrite at_vsub, at_vscale by (rewrite ?vscale_length; lia). reflexivity. }
    split; [destruct K as (_ & K & _); lia|]. rewrite len2_dot. apply (descent_step n f G L _ _ _ Hs (Rlt_le _ _ A0) A1 Lx K).
  Qed.

  Lemma loop_path : forall k x prev, length x = n -> exists m, (m <= k)%nat /\
    gd_loop alpha cg k x prev = Ok (descend alpha G x m) /\
    (m = k \/ (0 < m)%nat /\ Rabs (f (descend alpha G x (m - 1)) - f (descend alpha G x m)) < / 10 ^ 20 \/ m = 0%nat /\ Rabs (prev - f x) < / 10 ^ 20).
  Proof.
    induction k as [|k IH]; intros x prev Lx.
    - exists 0%nat. split; [lia|]. split; [reflexivity|]. now left.
    - cbn [gd_loop]. rewrite Hcg by auto. cbn [rbind]. destruct (nltb _ _) eqn:E.
      + exists 0%nat. split; [lia|]. split; [reflexivity|]. right. right. split; auto.
        rewrite learning_eps_R in E. cbn [nltb nabs nsub NumR] in E. destruct (Rlt_dec _ _) as [K|]; [exact K|discriminate].
      + destruct (Hs x Lx) as (LG & _). rewrite rvsub_eq by (rewrite vscale_length; lia). cbn [rbind]. rewrite vstep.
        destruct (one_step x Lx) as (L' & _). destruct (IH _ (f x) L') as (m & Hm & Hl & Hc).
        exists (S m). split; [lia|]. split; [exact Hl|]. destruct Hc as [->|[(Hm0 & Hc)|(-> & Hc)]].
        * now left.
        * right. left. split; [lia|]. replace (S m - 1)%nat with (S (m - 1)) by lia. exact Hc.
        * right. left. split; [lia|exact Hc].
  Qed.

  Lemma descend_length : forall t x, length x = n -> length (descend alpha G x t) = n.
  Proof. induction t as [|t IH]; intros x Lx; [exact Lx|]. cbn [descend]. apply IH, one_step, Lx. Qed.
  Lemma descend_S : forall t x, descend alpha G x (S t) = map2 (fun a b => a - alpha * b) (descend alpha G x t) (G (descend alpha G x t)).
  Proof. induction t as [|t IH]; intros x; [reflexivity|]. change (descend alpha G x (S (S t))) with (descend alpha G (map2 (fun a b => a - alpha * b) x (G x)) (S t)). now rewrite IH. Qed.
  Lemma descend_drop t x : length x = n -> f (descend alpha G x (S t)) <= f (descend alpha G x t) - alpha / 2 * len2 (G (descend alpha G x t)).
  Proof. intros Lx. rewrite descend_S. apply one_step, descend_length, Lx. Qed.
  Lemma len2_ge0 v : 0 <= len2 v.
  Proof. rewrite len2_dot. apply dot_ge0. Qed.
  Lemma descend_sum : forall m x, length x = n -> alpha / 2 * sumR m (fun t => len2 (G (descend alpha G x t))) <= f x - f (descend alpha G x m).
  Proof.
    induction m as [|m IH]; intros x Lx; [cbn; lra|]. cbn [sumR]. specialize (IH x Lx). pose proof (descend_drop m x Lx). lra.
  Qed.
End Steps.

Theorem gd_stationary n f G L self cg start : smooth n f G L -> (forall x, length x = n -> cg x = Ok (f x, G x)) ->
  0 < gd_alpha self -> gd_alpha self * L <= 1 -> length start = n ->
  let x := descend (gd_alpha self) G start in
  exists m, (m <= gd_iters self)%nat /\ gd_optimize self cg start = Ok (x m) /\
    (forall t, (t < m)%nat -> f (x (S t)) <= f (x t) - gd_alpha self / 2 * len2 (G (x t))) /\
    (forall b, (forall y, length y = n -> b <= f y) -> (0 < m)%nat ->
       exists t, (t < m)%nat /\ INR m * len2 (G (x t)) <= 2 * (f start - b) / gd_alpha self) /\
    (m = gd_iters self \/ (0 < m)%nat /\ len2 (G (x (m - 1)%nat)) <= 2 * / 10 ^ 20 / gd_alpha self \/ m = 0%nat /\ Rabs (f start) < / 10 ^ 20).
Proof.
  intros Hs Hcg A0 A1 Ls x. destruct (loop_path n f G L (gd_alpha self) cg Hs Hcg A0 A1 (gd_iters self) start 0 Ls) as (m & Hm & Hl & Hc).
  exists m. split; [exact Hm|]. split; [exact Hl|].
  assert (Hd : forall t, f (x (S t)) <= f (x t) - gd_alpha self / 2 * len2 (G (x t))) by (intros t; apply (descend_drop n f G L); auto).
  split; [auto|]. split.
  - intros b Hb Hm0. pose proof (descend_sum n f G L (gd_alpha self) Hs A0 A1 m start Ls) as Hsum.
    assert (Hb' : b <= f (x m)) by (apply Hb; apply (descend_length n f G L); auto).
    destruct (classic_min m (fun t => len2 (G (x t))) Hm0) as (t & Ht & Hmin). exists t. split; [exact Ht|].
    assert (K : INR m * len2 (G (x t)) <= sumR m (fun t => len2 (G (x t)))). { rewrite <- sumR_const. apply sumR_le. auto. }
    apply Rmult_le_reg_r with (gd_alpha self / 2); [lra|]. replace (2 * (f start - b) / gd_alpha self * (gd_alpha self / 2)) with (f start - b) by (field; lra).
    unfold x in *. nra.
  - destruct Hc as [Hc|[(Hm0 & Hc)|(-> & Hc)]]; [now left| |].
    + right. left. split; [exact Hm0|]. specialize (Hd (m - 1)%nat). replace (S (m - 1)) with m in Hd by lia.
      apply Rmult_le_reg_r with (gd_alpha self / 2); [lra|]. replace (2 * / 10 ^ 20 / gd_alpha self * (gd_alpha self / 2)) with (/ 10 ^ 20) by (generalize (/ 10 ^ 20); intros; field; lra).
      apply Rabs_def2 in Hc. unfold x in *. lra.
    + right. right. split; auto. now rewrite Rminus_0_l, Rabs_Ropp in Hc.
Qed.

(** Strong convexity. *)
Lemma polyak n f G L mu x q : smooth n f G L -> strongly_convex n f G mu -> 0 < mu -> length x = n -> length q = n ->
  2 * mu * (f x - f q) <= len2 (G x).
Proof.
  intros Hs Hc M Lx Lq. destruct (Hs x Lx) as (LG & _). specialize (Hc x q Lx Lq). unfold dist2 in Hc. rewrite Lq in Hc.
  unfold len2. rewrite LG.
  assert (K : - (sumR n (fun k => nth k (G x) 0 ^ 2) / (2 * mu)) <= sumR n (fun k => nth k (G x) 0 * (nth k q 0 - nth k x 0)) + mu / 2 * sumR n (fun k => (nth k q 0 - nth k x 0) ^ 2)).
  { rewrite <- sumR_scal, <- sumR_plus. unfold Rdiv. rewrite Ropp_mult_distr_r, <- sumR_scal_r. apply sumR_le. intros k _.
    set (g := nth k (G x) 0). set (d := nth k q 0 - nth k x 0).
    apply Rmult_le_reg_r with (2 * mu); [lra|]. replace (g ^ 2 * - / (2 * mu) * (2 * mu)) with (- g ^ 2) by (field; lra).
    pose proof (pow2_ge_0 (g + mu * d)). nra. }
  apply Rmult_le_reg_r with (/ (2 * mu)); [apply Rinv_0_lt_compat; lra|].
  replace (2 * mu * (f x - f q) * / (2 * mu)) with (f x - f q) by (field; lra).
  unfold Rdiv in K. lra.
Qed.

Theorem gd_linear n f G L mu self cg start : smooth n f G L -> strongly_convex n f G mu -> 0 < mu -> mu <= L ->
  (forall x, length x = n -> cg x = Ok (f x, G x)) -> 0 < gd_alpha self -> gd_alpha self * L <= 1 -> length start = n ->
  exists w, gd_optimize self cg start = Ok w /\ length w = n /\ forall q, length q = n ->
    f w - f q <= (1 - gd_alpha self * mu) ^ gd_iters self * (f start - f q) \/
    f w - f q <= / 10 ^ 20 / (gd_alpha self * mu) \/
    w = start /\ Rabs (f start) < / 10 ^ 20.
Proof.
  intros Hs Hc M ML Hcg A0 A1 Ls.
  destruct (loop_path n f G L (gd_alpha self) cg Hs Hcg A0 A1 (gd_iters self) start 0 Ls) as (m & Hm & Hl & Hx).
  exists (descend (gd_alpha self) G start m). split; [exact Hl|]. split; [apply (descend_length n f G L); auto|]. intros q Lq.
  set (x := descend (gd_alpha self) G start) in *. set (a := gd_alpha self) in *.
  assert (Hd : forall t, f (x (S t)) <= f (x t) - a / 2 * len2 (G (x t))) by (intros t; apply (descend_drop n f G L); auto).
  assert (Hp : forall t, 2 * mu * (f (x t) - f q) <= len2 (G (x t))) by (intros t; apply (polyak n f G L); auto; apply (descend_length n f G L); auto).
  assert (AM : 0 <= 1 - a * mu) by nra.
  assert (Hr : forall t, f (x t) - f q <= (1 - a * mu) ^ t * (f start - f q)).
  { induction t as [|t IH]; [cbn; lra|]. cbn [pow]. apply Rle_trans with ((1 - a * mu) * (f (x t) - f q)).
    - specialize (Hd t). specialize (Hp t). nra.
    - rewrite Rmult_assoc. apply Rmult_le_compat_l; auto. }
  destruct Hx as [->|[(Hm0 & Hx)|(-> & Hx)]].
  - left. apply Hr.
  - right. left. specialize (Hd (m - 1)%nat). specialize (Hp (m - 1)%nat). replace (S (m - 1)) with m in Hd by lia.
    apply Rabs_def2 in Hx. pose proof (len2_ge0 (G (x (m - 1)%nat))).
    assert (AMp : 0 < a * mu) by nra.
    apply Rmult_le_reg_r with (a * mu); [exact AMp|]. replace (/ 10 ^ 20 / (a * mu) * (a * mu)) with (/ 10 ^ 20) by (generalize (/ 10 ^ 20); intros; field; split; lra).
    generalize dependent (/ 10 ^ 20). intros e Hx.
    assert (f (x m) - f q <= f (x (m - 1)%nat) - f q) by nra. nra.
  - right. right. split; [reflexivity|]. now rewrite Rminus_0_l, Rabs_Ropp in Hx.
Qed.

Lemma ls_strong Z y mu : mwf Z -> (0 < nrows Z)%nat -> length y = nrows Z ->
  (forall v, length v = mcols Z -> mu * INR (nrows Z) * dot v v <= dot (mat_vec Z v) (mat_vec Z v)) ->
  strongly_convex (mcols Z) (ls_cost Z y) (ls_grad Z y) mu.
Proof.
  intros W Hn Ly HM x q Lx Lq. assert (P : 0 < INR (nrows Z)) by (apply lt_0_INR; auto).
  set (d := vsub q x). assert (Ld : length d = mcols Z) by (unfold d; rewrite vsub_len'; lia). specialize (HM d Ld).
  assert (EG : sumR (mcols Z) (fun k => nth k (ls_grad Z y x) 0 * (nth k q 0 - nth k x 0)) = dot (ls_grad Z y x) d).
  { rewrite (dot_sumR (mcols Z)); auto.
    - apply sumR_ext. intros k Hk. f_equal. unfold d, vsub. rewrite (map2_nth nsub _ _ k 0 0 0) by lia. reflexivity.
    - unfold ls_grad. rewrite map_length, mat_vec_length', transpose_nrows. reflexivity. }
  rewrite EG, dist2_d2 by lia. change (d2 q x) with (dot d d).
  rewrite ls_grad_dot by auto. unfold ls_cost.
  assert (E : vsub (mat_vec Z q) y = vadd (mat_vec Z d) (vsub (mat_vec Z x) y)).
  { unfold d. rewrite mat_vec_vsub by lia. symmetry. apply vsub_vsub_vadd; rewrite ?mat_vec_length'; auto. }
  rewrite E. set (r := vsub (mat_vec Z x) y) in *. set (z := mat_vec Z d) in *.
  assert (Lr : length r = nrows Z) by (unfold r; rewrite vsub_len'; rewrite mat_vec_length'; auto).
  assert (Lz : length z = nrows Z) by apply mat_vec_length'.
  rewrite dot_vadd_l by lia. rewrite !(dot_comm _ (vadd z r)), !dot_vadd_l by lia. rewrite (dot_comm z r).
  set (m := INR (nrows Z)) in *. apply Rmult_le_reg_r with (2 * m); [lra|].
  replace ((dot z z + dot r z + (dot r z + dot r r)) / (2 * m) * (2 * m)) with (dot z z + 2 * dot r z + dot r r) by (field; lra).
  replace ((dot r r / (2 * m) + dot r z / m + mu / 2 * dot d d) * (2 * m)) with (dot r r + 2 * dot r z + mu * m * dot d d) by (field; lra).
  lra.
Qed.

(** The regressor. *)
Theorem lin_gd_linear (self : LinRegressor R) X y L mu : mwf X -> (0 < nrows X)%nat -> length y = nrows X ->
  (forall x, In x (mrows X) -> 1 + sqnorm x <= L) -> 3 / 10 * L <= 1 -> 0 < mu ->
  (forall v, length v = S (mcols X) -> mu * INR (nrows X) * sqnorm v <= sumR (nrows X) (fun i => affine v (nth i (mrows X) []) ^ 2)) ->
  exists self' p, lr_train_with_optimization self X y = (self', Ok tt) /\ lr_parameters self' = Some p /\ length p = S (mcols X) /\
    (forall q, length q = S (mcols X) ->
      rss X y p - rss X y q <= (1 - 3 / 10 * mu) ^ 100 * (rss X y (repeat 0 (S (mcols X))) - rss X y q) \/
      rss X y p - rss X y q <= 20 / 3 * INR (nrows X) * / 10 ^ 20 / mu \/
      rss X y p < 2 * INR (nrows X) * / 10 ^ 20) /\
    (forall q, length q = S (mcols X) -> (forall q', length q' = S (mcols X) -> rss X y q <= rss X y q') ->
      mu * INR (nrows X) * dist2 p q <= rss X y p - rss X y q).
Proof.
  intros W Hn Ly HL A1 M HM. unfold lr_train_with_optimization.
  pose proof (with_ones_wf X W) as WZ. change (mcols (with_ones X)) with (S (mcols X)).
  change (@nzero R NumR) with 0. set (st := repeat 0 (S (mcols X))) in *.
  assert (Lst : length st = S (mcols X)) by apply repeat_length.
  assert (P : 0 < INR (nrows X)) by (apply lt_0_INR; auto).
  assert (HM' : forall v, length v = S (mcols X) -> mu * INR (nrows X) * dot v v <= dot (mat_vec (with_ones X) v) (mat_vec (with_ones X) v)).
  { intros v Lv. specialize (HM v Lv). rewrite sqnorm_dot in HM. rewrite mat_vec_ones by auto.
    rewrite (dot_sumR (nrows X) (map _ _)) by (apply map_length). eapply Rle_trans; [exact HM|]. apply Req_le, sumR_ext. intros i Hi.
    rewrite (nth_map (affine v) _ _ _ []) by exact Hi. ring. }
  assert (ML : mu <= L).
  { set (e := 1 :: repeat 0 (mcols X)). assert (Le : length e = S (mcols X)) by (cbn; rewrite repeat_length; auto).
    pose proof (HM' e Le) as K1. pose proof (rows_bound X L W HL e Le) as K2.
    assert (De : dot e e = 1). { unfold e. rewrite dot_cons. rewrite dot_zeros_l by (apply Forall_forall; intros z Hz; now apply repeat_spec in Hz). ring. } rewrite De in *. nra. }
  assert (Sm : smooth (S (mcols X)) (ls_cost (with_ones X) y) (ls_grad (with_ones X) y) L).
  { apply (ls_smooth (with_ones X)); rewrite ?with_ones_nrows; auto. apply rows_bound; auto. }
  assert (Cv : strongly_convex (S (mcols X)) (ls_cost (with_ones X) y) (ls_grad (with_ones X) y) mu).
  { apply (ls_strong (with_ones X)); rewrite ?with_ones_nrows; auto. }
  assert (Cg : forall x, length x = S (mcols X) -> lr_compute_grad (with_ones X) y x = Ok (ls_cost (with_ones X) y x, ls_grad (with_ones X) y x)).
  { intros x Lx. apply lr_compute_grad_R; rewrite ?with_ones_nrows; auto. }
  assert (EA : gd_alpha (@gd_default R NumR) = 3 / 10) by (unfold gd_default; cbn; lra).
  destruct (gd_linear _ _ _ _ mu (@gd_default R NumR) _ st Sm Cv M ML Cg ltac:(rewrite EA; lra) ltac:(rewrite EA; lra) Lst) as (w & E & Lw & HR).
  rewrite E. eexists _, w. split; [reflexivity|]. split; [reflexivity|]. split; [exact Lw|]. split.
  - intros q Lq. rewrite !rss_cost by auto. set (m := INR (nrows X)) in *. rewrite EA in HR.
    destruct (HR q Lq) as [R1|[R1|(-> & R1)]].
    + left. change (gd_iters gd_default) with 100%nat in R1. set (c := (1 - 3 / 10 * mu) ^ 100) in *.
      apply Rmult_le_compat_l with (r := 2 * m) in R1; [|lra]. lra.
    + right. left. apply Rmult_le_compat_l with (r := 2 * m) in R1; [|lra].
      replace (20 / 3 * m * / 10 ^ 20 / mu) with (2 * m * (/ 10 ^ 20 / (3 / 10 * mu))) by (generalize (/ 10 ^ 20); intros; field; lra). lra.
    + right. right. apply Rabs_def2 in R1. nra.
  - intros q Lq Hq. pose proof (Hq w Lw) as Hqw.
    (* at a minimiser the gradient vanishes: use convexity along the segment *)
    assert (Z0 : len2 (ls_grad (with_ones X) y q) <= 0).
    { destruct (one_step _ _ _ L (3 / 10) Sm ltac:(lra) A1 q Lq) as (Lq' & D). specialize (Hq _ Lq'). rewrite !rss_cost in Hq by auto.
      set (m := INR (nrows X)) in *. nra. }
    pose proof (Cv q w Lq Lw) as C.
    assert (G0 : forall k, (k < S (mcols X))%nat -> nth k (ls_grad (with_ones X) y q) 0 = 0).
    { intros k Hk. destruct (Sm q Lq) as (LG & _). unfold len2 in Z0. rewrite LG in Z0.
      assert (K : nth k (ls_grad (with_ones X) y q) 0 ^ 2 <= sumR (S (mcols X)) (fun k => nth k (ls_grad (with_ones X) y q) 0 ^ 2)).
      { apply (sumR_ge_term (S (mcols X)) (fun k => nth k (ls_grad (with_ones X) y q) 0 ^ 2)); auto. intros; apply pow2_ge_0. }
      pose proof (pow2_ge_0 (nth k (ls_grad (with_ones X) y q) 0)). nra. }
    rewrite sumR_zero in C by (intros k Hk; rewrite G0 by auto; ring).
    rewrite !rss_cost by auto. set (m := INR (nrows X)) in *. nra.
Qed.
