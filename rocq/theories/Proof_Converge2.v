(** Gradient-descent training of the two regressors: convexity, smoothness, rates. *)
From Coq Require Import List Arith Lia Bool Reals Lra.
From Verif Require Import Base BaseLemmas Num NumFn Linalg LinalgR Euclid Spec_Calc CalcR MatR Proof_KMeans Model_Cost Proof_Cost
  Model_Toolkit Proof_Toolkit Model_Optim Spec_Optim Proof_Optim Proof_Optim2 Model_Regression Spec_Regression Proof_Regression Proof_Regression2 Proof_GLM2 Proof_Converge.
Import ListNotations.
Local Open Scope R_scope.

Definition sp (z : R) : R := ln (1 + exp z).
Lemma sigmoid_alt z : sigmoid z = exp z / (1 + exp z).
Proof. rewrite sigmoid_R, exp_Ropp. pose proof (exp_pos z). field. lra. Qed.
Lemma sp_deriv z : derivable_pt_lim sp z (sigmoid z).
Proof.
  unfold sp. pose proof (exp_pos z). replace (sigmoid z) with (/ (1 + exp z) * (0 + exp z)) by (rewrite sigmoid_alt; field; lra).
  apply (derivable_pt_lim_comp (fun z => 1 + exp z) ln).
  - apply (derivable_pt_lim_plus (fct_cte 1) exp); [apply derivable_pt_lim_const|apply derivable_pt_lim_exp].
  - apply derivable_pt_lim_ln. lra.
Qed.
Lemma ce_sp z t : - ce_entry (sigmoid z) t = sp z - t * z.
Proof.
  unfold ce_entry, sp. pose proof (exp_pos z).
  replace (1 - sigmoid z) with (/ (1 + exp z)) by (rewrite sigmoid_alt; field; lra).
  rewrite sigmoid_alt. unfold Rdiv. rewrite ln_mult, ln_Rinv, ln_exp by (try apply Rinv_0_lt_compat; lra). ring.
Qed.
Lemma sigmoid_lip x y : x <= y -> 0 <= sigmoid y - sigmoid x <= (y - x) / 4.
Proof.
  intros [H| ->]; [|lra].
  destruct (MVT_cor2 sigmoid (fun z => sigmoid z * (1 - sigmoid z)) x y H) as (c & E & _); [intros; apply sigmoid_deriv|].
  pose proof (sigmoid_range c). rewrite E. set (s := sigmoid c) in *. assert (0 <= s * (1 - s)) by nra. assert (s * (1 - s) <= / 4) by (pose proof (Rle_0_sqr (s - / 2)); unfold Rsqr in *; nra).
  set (w := s * (1 - s)) in *. clearbody w. split; nra.
Qed.
Lemma sp_bounds z d : sp z + sigmoid z * d <= sp (z + d) <= sp z + sigmoid z * d + d * d / 8.
Proof.
  assert (M : forall a b, a < b -> exists c, sp b - sp a = sigmoid c * (b - a) /\ a < c < b).
  { intros a b H. destruct (MVT_cor2 sp sigmoid a b H) as (c & E & Hc); [intros; apply sp_deriv|]. eauto. }
  assert (Q : forall a b, a < b -> exists c, (sp b - b * b / 8) - (sp a - a * a / 8) = (sigmoid c - c / 4) * (b - a) /\ a < c < b).
  { intros a b H. destruct (MVT_cor2 (fun x => sp x - x * x / 8) (fun x => sigmoid x - x / 4) a b H) as (c & E & Hc); [|eauto].
    intros c _. replace (sigmoid c - c / 4) with (sigmoid c - (1 * c + c * 1) * / 8) by field.
    apply (derivable_pt_lim_minus sp (fun x => x * x / 8)); [apply sp_deriv|].
    replace ((1 * c + c * 1) * / 8) with ((1 * c + c * 1) * / 8 + (c * c) * 0) by ring.
    apply (derivable_pt_lim_mult (fun x => x * x) (fun _ => / 8)); [|apply derivable_pt_lim_const].
    apply (derivable_pt_lim_mult id id); apply derivable_pt_lim_id. }
  destruct (Rtotal_order d 0) as [H|[->|H]].
  - split.
    + destruct (M (z + d) z) as (c & E & Hc); [lra|]. pose proof (sigmoid_lip c z). nra.
    + destruct (Q (z + d) z) as (c & E & Hc); [lra|]. pose proof (sigmoid_lip c z). nra.
  - rewrite Rplus_0_r. lra.
  - split.
    + destruct (M z (z + d)) as (c & E & Hc); [lra|]. pose proof (sigmoid_lip z c). nra.
    + destruct (Q z (z + d)) as (c & E & Hc); [lra|]. pose proof (sigmoid_lip z c). nra.
Qed.

Definition lg_cost (Z : matrix R) (y p : list R) : R :=
  sumR (nrows Z) (fun i => sp (nth i (mat_vec Z p) 0) - nth i y 0 * nth i (mat_vec Z p) 0) / INR (nrows Z).
Definition lg_grad (Z : matrix R) (y p : list R) : list R :=
  map (fun x => x / INR (nrows Z)) (mat_vec (transpose Z) (vsub (map sigmoid (mat_vec Z p)) y)).

Lemma log_compute_grad_R Z y q : mwf Z -> length y = nrows Z -> length q = mcols Z ->
  log_compute_grad Z y q = Ok (lg_cost Z y q, lg_grad Z y q).
Proof.
  intros W Ly Lq. unfold log_compute_grad. rewrite rmat_vec_eq by auto. cbn [rbind].
  rewrite (ce_vec_sum _ _ (nrows Z)) by (rewrite ?map_length, ?mat_vec_length'; auto). cbn [rbind].
  rewrite rvsub_eq by (rewrite map_length, mat_vec_length'; auto). cbn [rbind].
  rewrite rmat_vec_eq by (rewrite vsub_len'; rewrite map_length, mat_vec_length'; auto). cbn [rbind]. f_equal. f_equal.
  unfold lg_cost. f_equal.
  rewrite <- (Rmult_1_l (sumR _ (fun i => ce_entry _ _))), Ropp_mult_distr_l, <- sumR_scal.
  apply sumR_ext. intros i Hi. rewrite (nth_map sigmoid _ _ _ 0) by (rewrite mat_vec_length'; auto).
  rewrite <- ce_sp. ring.
Qed.
Lemma lg_grad_dot Z y p d : mwf Z -> length y = nrows Z -> length d = mcols Z ->
  dot (lg_grad Z y p) d = sumR (nrows Z) (fun i => (sigmoid (nth i (mat_vec Z p) 0) - nth i y 0) * nth i (mat_vec Z d) 0) / INR (nrows Z).
Proof.
  intros W Ly Ld. assert (Lr : length (vsub (map sigmoid (mat_vec Z p)) y) = nrows Z) by (rewrite vsub_len'; rewrite map_length, mat_vec_length'; auto).
  assert (E : dot (lg_grad Z y p) d = dot (vsub (map sigmoid (mat_vec Z p)) y) (mat_vec Z d) / INR (nrows Z)).
  { rewrite dot_transpose by auto. unfold lg_grad, Rdiv. generalize (mat_vec (transpose Z) (vsub (map sigmoid (mat_vec Z p)) y)). intros l.
    rewrite Rmult_comm, <- dot_vscale_l. reflexivity. }
  rewrite E. f_equal. rewrite (dot_sumR (nrows Z)) by (rewrite ?mat_vec_length'; auto). apply sumR_ext. intros i Hi.
  unfold vsub. rewrite (map2_nth nsub _ _ i 0 0 0) by (rewrite ?map_length, ?mat_vec_length'; lia).
  rewrite (nth_map sigmoid _ _ _ 0) by (rewrite mat_vec_length'; auto). reflexivity.
Qed.
Lemma mat_vec_diff Z (x q : list R) i : length x = mcols Z -> length q = mcols Z -> (i < nrows Z)%nat ->
  nth i (mat_vec Z q) 0 = nth i (mat_vec Z x) 0 + nth i (mat_vec Z (vsub q x)) 0.
Proof.
  intros Lx Lq Hi. rewrite mat_vec_vsub by lia. unfold vsub. rewrite (map2_nth nsub _ _ i 0 0 0) by (rewrite ?mat_vec_length'; lia).
  cbn [nsub NumR]. ring.
Qed.
Lemma sumR_div n f c : sumR n f / c = sumR n (fun i => f i / c).
Proof. unfold Rdiv. now rewrite sumR_scal_r. Qed.
Lemma div_le a b c : 0 < c -> a <= b -> a / c <= b / c.
Proof. intros Hc H. unfold Rdiv. apply Rmult_le_compat_r; auto. left. now apply Rinv_0_lt_compat. Qed.

Lemma lg_convex Z y : mwf Z -> (0 < nrows Z)%nat -> length y = nrows Z -> convex (mcols Z) (lg_cost Z y) (lg_grad Z y).
Proof.
  intros W Hn Ly x q Lx Lq. assert (P : 0 < INR (nrows Z)) by (apply lt_0_INR; auto).
  rewrite lg_grad_dot by (auto; rewrite vsub_len'; lia). unfold lg_cost.
  rewrite <- Rdiv_plus_distr. apply div_le; auto. rewrite <- sumR_plus. apply sumR_le. intros i Hi.
  rewrite (mat_vec_diff Z x q i) by auto. pose proof (sp_bounds (nth i (mat_vec Z x) 0) (nth i (mat_vec Z (vsub q x)) 0)). nra.
Qed.
Lemma lg_smooth Z y L : mwf Z -> (0 < nrows Z)%nat -> length y = nrows Z ->
  (forall v, length v = mcols Z -> dot (mat_vec Z v) (mat_vec Z v) <= L * INR (nrows Z) * dot v v) ->
  smooth (mcols Z) (lg_cost Z y) (lg_grad Z y) (L / 4).
Proof.
  intros W Hn Ly HL x Lx. assert (P : 0 < INR (nrows Z)) by (apply lt_0_INR; auto). split.
  - unfold lg_grad. rewrite map_length, mat_vec_length', transpose_nrows. reflexivity.
  - intros q Lq. assert (Ld : length (vsub q x) = mcols Z) by (rewrite vsub_len'; lia). specialize (HL _ Ld).
    rewrite lg_grad_dot by auto. rewrite (dot_sumR (nrows Z)) in HL by (rewrite mat_vec_length'; auto).
    set (d := vsub q x) in *.
    assert (K : lg_cost Z y q <= lg_cost Z y x + sumR (nrows Z) (fun i => (sigmoid (nth i (mat_vec Z x) 0) - nth i y 0) * nth i (mat_vec Z d) 0) / INR (nrows Z)
       + / 8 * sumR (nrows Z) (fun i => nth i (mat_vec Z d) 0 * nth i (mat_vec Z d) 0) / INR (nrows Z)).
    { unfold lg_cost. rewrite <- sumR_scal, <- !Rdiv_plus_distr. apply div_le; auto. rewrite <- !sumR_plus. apply sumR_le. intros i Hi.
      rewrite (mat_vec_diff Z x q i) by auto. fold d. pose proof (sp_bounds (nth i (mat_vec Z x) 0) (nth i (mat_vec Z d) 0)). nra. }
    eapply Rle_trans; [exact K|]. apply Rplus_le_compat_l.
    apply Rmult_le_reg_r with (8 * INR (nrows Z)); [lra|]. set (m := INR (nrows Z)) in *. set (S := sumR _ _) in *.
    replace (/ 8 * S / m * (8 * m)) with S by (field; lra). replace (L / 4 / 2 * dot d d * (8 * m)) with (L * m * dot d d) by (field; lra). exact HL.
Qed.
Lemma ls_convex Z y : mwf Z -> (0 < nrows Z)%nat -> length y = nrows Z -> convex (mcols Z) (ls_cost Z y) (ls_grad Z y).
Proof.
  intros W Hn Ly x q Lx Lq. assert (P : 0 < INR (nrows Z)) by (apply lt_0_INR; auto).
  set (d := vsub q x). assert (Ld : length d = mcols Z) by (unfold d; rewrite vsub_len'; lia).
  rewrite ls_grad_dot by auto. unfold ls_cost.
  assert (E : vsub (mat_vec Z q) y = vadd (mat_vec Z d) (vsub (mat_vec Z x) y)).
  { unfold d. rewrite mat_vec_vsub by lia. symmetry. apply vsub_vsub_vadd; rewrite ?mat_vec_length'; auto. }
  rewrite E. set (r := vsub (mat_vec Z x) y) in *. set (z := mat_vec Z d) in *.
  assert (Lr : length r = nrows Z) by (unfold r; rewrite vsub_len'; rewrite mat_vec_length'; auto).
  assert (Lz : length z = nrows Z) by apply mat_vec_length'.
  rewrite dot_vadd_l by lia. rewrite !(dot_comm _ (vadd z r)), !dot_vadd_l by lia. rewrite (dot_comm z r).
  set (m := INR (nrows Z)) in *. apply Rmult_le_reg_r with (2 * m); [lra|].
  replace ((dot z z + dot r z + (dot r z + dot r r)) / (2 * m) * (2 * m)) with (dot z z + 2 * dot r z + dot r r) by (field; lra).
  replace ((dot r r / (2 * m) + dot r z / m) * (2 * m)) with (dot r r + 2 * dot r z) by (field; lra).
  pose proof (dot_ge0 z). lra.
Qed.

(** Rows of bounded norm. *)
Lemma sqnorm_dot x : sqnorm x = dot x x.
Proof. unfold sqnorm. rewrite (dot_sumR (length x)) by auto. apply sumR_ext. intros; ring. Qed.
Lemma rows_bound X L : mwf X -> (forall x, In x (mrows X) -> 1 + sqnorm x <= L) ->
  forall v, length v = S (mcols X) -> dot (mat_vec (with_ones X) v) (mat_vec (with_ones X) v) <= L * INR (nrows X) * dot v v.
Proof.
  intros W H v Lv. rewrite (dot_sumR (nrows X)) by (rewrite mat_vec_length', with_ones_nrows; auto).
  rewrite (Rmult_comm L), Rmult_assoc. rewrite <- (sumR_const (nrows X) (L * dot v v)).
  apply sumR_le. intros i Hi. unfold mat_vec, with_ones. cbn [mrows]. rewrite map_map.
  rewrite (nth_map (fun r => dot (nonev :: r) v) _ _ _ []) by exact Hi.
  set (r := nth i (mrows X) []). assert (Hr : In r (mrows X)) by (apply nth_In; exact Hi). specialize (H r Hr).
  pose proof (cauchy (1 :: r) v) as C. rewrite (dot_cons 1 1 r r) in C. rewrite sqnorm_dot in H.
  change (@nonev R NumR) with 1. pose proof (dot_ge0 v). nra.
Qed.

Lemma log_loss_cost X y p : mwf X -> length y = nrows X -> length p = S (mcols X) -> log_loss X y p = lg_cost (with_ones X) y p.
Proof.
  intros W Ly Lp. unfold log_loss, lg_cost. rewrite with_ones_nrows. f_equal. apply sumR_ext. intros i Hi. cbv zeta.
  rewrite mat_vec_ones by auto. rewrite (nth_map (affine p) _ _ _ []) by exact Hi. rewrite <- ce_sp. unfold ce_entry. rewrite sigmoid_R. reflexivity.
Qed.
Lemma d2_sqdist (a b : list R) : length a = length b -> d2 a b = sumR (length a) (fun k => (nth k a 0 - nth k b 0) ^ 2).
Proof.
  intros H. unfold d2. rewrite (dot_sumR (length a)) by (rewrite vsub_len'; auto). apply sumR_ext. intros k Hk.
  unfold vsub. rewrite (map2_nth nsub _ _ k 0 0 0) by lia. cbn [nsub NumR]. ring.
Qed.

Lemma gd_total n f G L self cg start : smooth n f G L -> (forall x, length x = n -> cg x = Ok (f x, G x)) -> length start = n ->
  exists w, gd_optimize self cg start = Ok w.
Proof.
  intros S Hcg. unfold gd_optimize. generalize (@nzero R NumR). revert start. generalize (gd_iters self).
  intros k. induction k as [|k IH]; intros x prev Lx; [eexists; reflexivity|].
  cbn [gd_loop]. rewrite Hcg by auto. cbn [rbind]. destruct (nltb _ _); [eexists; reflexivity|].
  destruct (S x Lx) as (LG & _). rewrite rvsub_eq by (rewrite vscale_length; lia). cbn [rbind]. apply IH.
  rewrite vsub_len'; [lia|rewrite vscale_length; lia].
Qed.

Theorem log_gd_rate gd (self : LogisticRegressor R) X y L : mwf X -> (0 < nrows X)%nat -> length y = nrows X ->
  (forall x, In x (mrows X) -> 1 + sqnorm x <= L) -> 0 < gd_alpha gd -> gd_alpha gd * L <= 4 ->
  exists self' p, log_train (gd_optimize gd) self X y = (self', Ok tt) /\ log_parameters self' = Some p /\ length p = S (mcols X) /\
    log_loss X y p <= log_loss X y (repeat (1 / 2) (S (mcols X))) /\
    forall q, length q = S (mcols X) ->
      let D := sumR (S (mcols X)) (fun k => (1 / 2 - nth k q 0) ^ 2) in
      2 * gd_alpha gd * INR (gd_iters gd) * (log_loss X y p - log_loss X y q) <= D \/
      log_loss X y p - log_loss X y q <= sqrt (2 * / 10 ^ 20 / gd_alpha gd) * sqrt D \/
      log_loss X y p < / 10 ^ 20.
Proof.
  intros W Hn Ly HL A0 A1. unfold log_train.
  pose proof (with_ones_wf X W) as WZ. change (mcols (with_ones X)) with (S (mcols X)).
  change (@nonev R NumR / (@nonev R NumR + @nonev R NumR))%num with (1 / (1 + 1)).
  replace (1 + 1) with 2 by ring. set (st := repeat (1 / 2) (S (mcols X))) in *.
  assert (Lst : length st = S (mcols X)) by apply repeat_length.
  assert (Sm : smooth (S (mcols X)) (lg_cost (with_ones X) y) (lg_grad (with_ones X) y) (L / 4)).
  { apply (lg_smooth (with_ones X)); rewrite ?with_ones_nrows; auto. apply rows_bound; auto. }
  assert (Cv : convex (S (mcols X)) (lg_cost (with_ones X) y) (lg_grad (with_ones X) y)).
  { apply (lg_convex (with_ones X)); rewrite ?with_ones_nrows; auto. }
  assert (Cg : forall x, length x = S (mcols X) -> log_compute_grad (with_ones X) y x = Ok (lg_cost (with_ones X) y x, lg_grad (with_ones X) y x)).
  { intros x Lx. apply log_compute_grad_R; rewrite ?with_ones_nrows; auto. }
  destruct (gd_total _ _ _ _ gd _ st Sm Cg Lst) as (w & E). rewrite E. eexists _, w. split; [reflexivity|]. split; [reflexivity|].
  destruct (gd_descent _ _ _ _ gd _ Sm Cg (Rlt_le _ _ A0) ltac:(lra) st w Lst E) as (K1 & Lw).
  split; [exact Lw|]. split. { rewrite !log_loss_cost by auto. exact K1. }
  intros q Lq. set (D := sumR (S (mcols X)) (fun k => (1 / 2 - nth k q 0) ^ 2)). rewrite !log_loss_cost by auto.
  assert (ED : D = d2 st q).
  { unfold D. rewrite d2_sqdist, Lst by lia. apply sumR_ext. intros k Hk. unfold st. rewrite nth_repeat_lt by auto. reflexivity. }
  rewrite ED. destruct (gd_rate _ _ _ _ gd _ st w q Sm Cv Cg A0 ltac:(lra) Lst Lq E) as [R1|[R1|(-> & R1)]]; auto.
  right. right. apply Rabs_def2 in R1. lra.
Qed.

Theorem lin_gd_rate (self : LinRegressor R) X y L : mwf X -> (0 < nrows X)%nat -> length y = nrows X ->
  (forall x, In x (mrows X) -> 1 + sqnorm x <= L) -> 3 / 10 * L <= 1 ->
  exists self' p, lr_train_with_optimization self X y = (self', Ok tt) /\ lr_parameters self' = Some p /\ length p = S (mcols X) /\
    forall q, length q = S (mcols X) ->
      30 * (rss X y p - rss X y q) <= INR (nrows X) * sqnorm q \/
      rss X y p - rss X y q <= 2 * INR (nrows X) * (sqrt (20 / 3 * / 10 ^ 20) * sqrt (sqnorm q)) \/
      rss X y p < 2 * INR (nrows X) * / 10 ^ 20.
Proof.
  intros W Hn Ly HL A1. unfold lr_train_with_optimization.
  pose proof (with_ones_wf X W) as WZ. change (mcols (with_ones X)) with (S (mcols X)).
  change (@nzero R NumR) with 0. set (st := repeat 0 (S (mcols X))) in *.
  assert (Lst : length st = S (mcols X)) by apply repeat_length.
  assert (Sm : smooth (S (mcols X)) (ls_cost (with_ones X) y) (ls_grad (with_ones X) y) L).
  { apply (ls_smooth (with_ones X)); rewrite ?with_ones_nrows; auto. apply rows_bound; auto. }
  assert (Cv : convex (S (mcols X)) (ls_cost (with_ones X) y) (ls_grad (with_ones X) y)).
  { apply (ls_convex (with_ones X)); rewrite ?with_ones_nrows; auto. }
  assert (Cg : forall x, length x = S (mcols X) -> lr_compute_grad (with_ones X) y x = Ok (ls_cost (with_ones X) y x, ls_grad (with_ones X) y x)).
  { intros x Lx. apply lr_compute_grad_R; rewrite ?with_ones_nrows; auto. }
  destruct (gd_total _ _ _ _ (@gd_default R NumR) _ st Sm Cg Lst) as (w & E). rewrite E. eexists _, w. split; [reflexivity|]. split; [reflexivity|].
  assert (EA : gd_alpha (@gd_default R NumR) = 3 / 10) by (unfold gd_default; cbn; lra).
  destruct (gd_descent _ _ _ _ (@gd_default R NumR) _ Sm Cg ltac:(rewrite EA; lra) ltac:(rewrite EA; lra) st w Lst E) as (K1 & Lw).
  split; [exact Lw|]. intros q Lq. rewrite !rss_cost by auto.
  assert (P : 0 < INR (nrows X)) by (apply lt_0_INR; auto). set (m := INR (nrows X)) in *.
  assert (ED : sqnorm q = d2 st q).
  { unfold sqnorm. rewrite d2_sqdist by lia. rewrite Lst, Lq. apply sumR_ext. intros k Hk. unfold st. rewrite nth_repeat. ring. }
  rewrite ED. destruct (gd_rate _ _ _ _ (@gd_default R NumR) _ st w q Sm Cv Cg ltac:(rewrite EA; lra) ltac:(rewrite EA; lra) Lst Lq E) as [R1|[R1|(-> & R1)]].
  - left. rewrite EA in R1. replace (INR (gd_iters (@gd_default R NumR))) with 100 in R1 by (unfold gd_default; cbn [gd_iters]; rewrite INR_IZR_INZ; reflexivity). nra.
  - right. left. rewrite EA in R1. replace (2 * / 10 ^ 20 / (3 / 10)) with (20 / 3 * / 10 ^ 20) in R1 by (generalize (/ 10 ^ 20); intros; field). nra.
  - right. right. apply Rabs_def2 in R1. nra.
Qed.

Lemma rate_ex : let X := Mat [[1]; [-1]; [1 / 2]] 1 in mwf X /\ (0 < nrows X)%nat /\ length [1; 0; 1] = nrows X /\
  (forall x, In x (mrows X) -> 1 + sqnorm x <= 2) /\ 0 < gd_alpha (@gd_default R NumR) /\ gd_alpha (@gd_default R NumR) * 2 <= 4 /\ 3 / 10 * 2 <= 1.
Proof.
  intros X. assert (EA : gd_alpha (@gd_default R NumR) = 3 / 10) by (unfold gd_default; cbn; lra). rewrite EA.
  split; [repeat constructor|]. split; [cbn; lia|]. split; [reflexivity|]. split; [|lra].
  intros x [<-|[<-|[<-|[]]]]; unfold sqnorm; cbn; lra.
Qed.
Lemma convex_ex : convex 1 (fun x => nth 0 x 0 * nth 0 x 0 / 2) (fun x => x).
Proof.
  intros x y Lx Ly. destruct x as [|a [|]], y as [|b [|]]; try discriminate. cbn [vsub map2 nth]. rewrite !dot_cons, !dot_nil_l. cbn [nsub NumR].
  pose proof (Rle_0_sqr (a - b)) as K. unfold Rsqr in K. lra.
Qed.

Theorem gd_rate' n f G L self cg start : smooth n f G L -> convex n f G -> (forall x, length x = n -> cg x = Ok (f x, G x)) ->
  0 < gd_alpha self -> gd_alpha self * L <= 1 -> length start = n ->
  exists w, gd_optimize self cg start = Ok w /\ length w = n /\ forall q, length q = n ->
    let D := sumR n (fun k => (nth k start 0 - nth k q 0) ^ 2) in
    2 * gd_alpha self * INR (gd_iters self) * (f w - f q) <= D \/
    f w - f q <= sqrt (2 * / 10 ^ 20 / gd_alpha self) * sqrt D \/
    (w = start /\ Rabs (f start) < / 10 ^ 20).
Proof.
  intros Sm Cv Cg A0 A1 Ls. destruct (gd_total _ _ _ _ self _ start Sm Cg Ls) as (w & E). exists w. split; [exact E|].
  split; [eapply gd_descent; eauto; lra|]. intros q Lq. cbv zeta. rewrite <- Ls at 1 2. rewrite <- d2_sqdist by lia. eapply gd_rate; eauto.
Qed.
