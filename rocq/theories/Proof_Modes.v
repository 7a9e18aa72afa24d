(** Lemmas for [Props_Modes]. *)
From Coq Require Import List Arith Reals Lra Lia Bool.
From Verif Require Import Base BaseLemmas Num NumFn Linalg LinalgR Spec_Calc CalcR MatR Model_Cost Model_Toolkit Model_Optim Proof_Optim Proof_Optim2 Model_Regression Spec_Regression
  Proof_Regression Proof_Regression2 Proof_Equiv Spec_Modes.
Import ListNotations.
Local Open Scope R_scope.

Lemma inner_dot n u v : length u = n -> length v = n -> inner_prod n u v = dot u v.
Proof. intros Lu Lv. symmetry. now apply dot_sumR. Qed.
Lemma dot_map_div c (l v : list R) : dot (map (fun x => x / c) l) v = dot l v / c.
Proof. revert v. induction l as [|x l IH]; intros [|y v]; cbn [map]; rewrite ?dot_nil_l, ?dot_nil_r, ?dot_cons, ?IH; unfold Rdiv; ring. Qed.
Section Modes.
  Variables (X : matrix R) (y : list R).
  Hypothesis W : mwf X.
  Hypothesis Hn : (0 < nrows X)%nat.
  Hypothesis Ly : length y = nrows X.
  Let Z := with_ones X.
  Lemma affine_sum (v u : list R) : length v = S (mcols X) -> length u = S (mcols X) ->
    sumR (nrows X) (fun i => affine v (nth i (mrows X) []) * affine u (nth i (mrows X) [])) = dot (mat_vec Z v) (mat_vec Z u).
  Proof.
    intros Lv Lu. unfold Z. rewrite !mat_vec_ones by auto. rewrite (dot_sumR (nrows X)) by (apply map_length). apply sumR_ext. intros i Hi.
    now rewrite !(nth_map (affine _) _ _ 0 []) by exact Hi.
  Qed.
  Lemma orth_dot q v : length q = S (mcols X) -> length v = S (mcols X) -> orth X y q v = dot (vsub y (mat_vec Z q)) (mat_vec Z v).
  Proof.
    intros Lq Lv. unfold Z, orth. rewrite !mat_vec_ones by auto. rewrite (dot_sumR (nrows X)).
    - apply sumR_ext. intros i Hi. unfold vsub. rewrite map2_nth with (da := 0) (db := 0) by (rewrite ?map_length; unfold nrows in *; lia).
      now rewrite !(nth_map (affine _) _ _ 0 []) by exact Hi.
    - rewrite vsub_len'; [exact Ly|]. rewrite map_length. exact Ly.
    - apply map_length.
  Qed.
  Lemma step_mode alpha p q v lambda : length p = S (mcols X) -> is_ls X y q -> mode X v lambda ->
    offset X v (vsub p (vscale alpha (ls_grad Z y p))) q = (1 - alpha * lambda) * offset X v p q.
  Proof.
    intros Lp HQ (Lv & HV). apply ls_orth in HQ. destruct HQ as (Lq & HO). specialize (HO v Lv).
    pose proof (with_ones_wf X W) as WZ. assert (NZ : nrows Z = nrows X) by apply with_ones_nrows.
    assert (HN : INR (nrows X) <> 0) by (apply not_0_INR; lia).
    assert (Lg : length (ls_grad Z y p) = S (mcols X)) by (unfold ls_grad; rewrite map_length, mat_vec_length', transpose_nrows; reflexivity).
    assert (Lm : forall w, length (mat_vec Z w) = nrows X) by (intro w; rewrite mat_vec_length'; exact NZ).
    unfold offset. rewrite !inner_dot; auto; [|rewrite vsub_len'; [exact Lp|unfold vscale; rewrite map_length; congruence]].
    rewrite (dot_comm v (vsub _ _)), dot_vsub_l by (unfold vscale; rewrite map_length; congruence). rewrite dot_vscale_l.
    assert (E : dot (ls_grad Z y p) v = lambda * (dot v p - dot v q)).
    { unfold ls_grad. rewrite dot_map_div, NZ. rewrite <- dot_transpose; auto; [|rewrite vsub_len', Lm; [now symmetry|rewrite Lm; auto]].
      rewrite orth_dot in HO by auto. rewrite dot_vsub_l in HO |- * by (rewrite Lm; auto).
      assert (A : dot (mat_vec Z p) (mat_vec Z v) - dot (mat_vec Z q) (mat_vec Z v) = lambda * INR (nrows X) * (dot v p - dot v q)).
      { pose proof (HV p Lp) as H1. pose proof (HV q Lq) as H2. rewrite affine_sum in H1, H2 by auto. rewrite inner_dot in H1, H2 by auto.
        rewrite (dot_comm (mat_vec Z p)), (dot_comm (mat_vec Z q)), H1, H2. ring. }
      apply (Rmult_eq_reg_r (INR (nrows X))); [|exact HN]. unfold Rdiv. rewrite Rmult_assoc, Rinv_l, Rmult_1_r by exact HN. lra. }
    rewrite E, (dot_comm p v). ring.
  Qed.
  Lemma loop_mode alpha n : forall p c0, length p = S (mcols X) -> exists w j, gd_loop alpha (lr_compute_grad Z y) n p c0 = Ok w /\ length w = S (mcols X) /\ (j <= n)%nat /\
    (forall q v lambda, is_ls X y q -> mode X v lambda -> offset X v w q = (1 - alpha * lambda) ^ j * offset X v p q) /\
    (j = n \/ (j = 0%nat /\ Rabs (c0 - rss X y w / (2 * INR (nrows X))) < / 10 ^ 20) \/
     exists w' j', j = S j' /\ (forall q v lambda, is_ls X y q -> mode X v lambda -> offset X v w' q = (1 - alpha * lambda) ^ j' * offset X v p q) /\
       Rabs (rss X y w' / (2 * INR (nrows X)) - rss X y w / (2 * INR (nrows X))) < / 10 ^ 20).
  Proof.
    induction n as [|n IH]; intros p c0 Lp.
    - exists p, 0%nat. split; [reflexivity|]. split; [exact Lp|]. split; [lia|]. split; [intros; cbn; ring|now left].
    - cbn [gd_loop]. pose proof (with_ones_wf X W) as WZ. assert (NZ : nrows Z = nrows X) by apply with_ones_nrows.
      assert (HN : 0 < INR (nrows X)) by (apply lt_0_INR; lia).
      rewrite lr_compute_grad_R by (rewrite ?NZ; auto). cbn [rbind]. rewrite learning_eps_R. cbn [nltb nabs nsub NumR]. destruct (Rlt_dec _ _) as [Hl|Hl].
      + exists p, 0%nat. split; [reflexivity|]. split; [exact Lp|]. split; [lia|]. split; [intros; cbn; ring|]. right. left. split; [reflexivity|].
        replace (rss X y p / (2 * INR (nrows X))) with (ls_cost Z y p); [exact Hl|]. rewrite rss_cost by auto. fold Z. field. lra.
      + assert (Lg : length (ls_grad Z y p) = S (mcols X)) by (unfold ls_grad; rewrite map_length, mat_vec_length', transpose_nrows; reflexivity).
        assert (Ls : length (vscale alpha (ls_grad Z y p)) = S (mcols X)) by (unfold vscale; now rewrite map_length).
        unfold rvsub. rewrite Lp, Ls, Nat.eqb_refl. cbn [rassert rbind].
        destruct (IH (vsub p (vscale alpha (ls_grad Z y p))) (ls_cost Z y p) ltac:(rewrite vsub_len'; congruence)) as (w & j & E & Lw & Hj & HM & HS).
        exists w, (S j). split; [exact E|]. split; [exact Lw|]. split; [lia|]. split.
        * intros q v lambda HQ HV. rewrite (HM q v lambda HQ HV), step_mode with (lambda := lambda) by auto. cbn [pow]. ring.
        * destruct HS as [-> | [(-> & HS)|(w' & j' & -> & HP & HS)]]; [now left| |].
          -- right. right. exists p, 0%nat. split; [reflexivity|]. split; [intros; cbn; ring|].
             replace (rss X y p / (2 * INR (nrows X))) with (ls_cost Z y p); [exact HS|]. rewrite rss_cost by auto. fold Z. field. lra.
          -- right. right. exists w', (S j'). split; [reflexivity|]. split; [|exact HS].
             intros q v lambda HQ HV. rewrite (HP q v lambda HQ HV), step_mode with (lambda := lambda) by auto. cbn [pow]. ring.
  Qed.
End Modes.

Lemma ls_best X y q : is_ls X y q <-> best_fit X y q.
Proof. reflexivity. Qed.
Theorem gd_modes (gd : GradientDesc R) X y start : mwf X -> (0 < nrows X)%nat -> length y = nrows X -> length start = S (mcols X) ->
  exists w j, gd_optimize gd (lr_compute_grad (with_ones X) y) start = Ok w /\ length w = S (mcols X) /\ (j <= gd_iters gd)%nat /\
    shrunk X y (gd_alpha gd) j start w /\
    (j = gd_iters gd \/ (j = 0%nat /\ rss X y w < 2 * INR (nrows X) * / 10 ^ 20) \/
     exists w' j', j = S j' /\ shrunk X y (gd_alpha gd) j' start w' /\ Rabs (rss X y w' - rss X y w) < 2 * INR (nrows X) * / 10 ^ 20).
Proof.
  intros W Hn Ly Ls. destruct (loop_mode X y W Hn Ly (gd_alpha gd) (gd_iters gd) start 0 Ls) as (w & j & E & Lw & Hj & HM & HS).
  assert (HN : 0 < INR (nrows X)) by (apply lt_0_INR; lia).
  exists w, j. split; [exact E|]. split; [exact Lw|]. split; [exact Hj|]. split; [exact HM|].
  destruct HS as [HS|[(E0 & HS)|(w' & j' & E0 & HP & HS)]]; [now left| |].
  - right. left. split; [exact E0|]. rewrite Rabs_minus_sym, Rminus_0_r in HS. apply Rabs_def2 in HS. destruct HS as [HS _].
    apply (Rmult_lt_compat_l (2 * INR (nrows X))) in HS; [|lra]. replace (2 * INR (nrows X) * (rss X y w / (2 * INR (nrows X)))) with (rss X y w) in HS by (field; lra). exact HS.
  - right. right. exists w', j'. split; [exact E0|]. split; [exact HP|].
    replace (rss X y w' / (2 * INR (nrows X)) - rss X y w / (2 * INR (nrows X))) with ((rss X y w' - rss X y w) * / (2 * INR (nrows X))) in HS by (field; lra).
    rewrite Rabs_mult, (Rabs_right (/ _)) in HS by (left; apply Rinv_0_lt_compat; lra).
    apply (Rmult_lt_compat_l (2 * INR (nrows X))) in HS; [|lra].
    replace (2 * INR (nrows X) * (Rabs (rss X y w' - rss X y w) * / (2 * INR (nrows X)))) with (Rabs (rss X y w' - rss X y w)) in HS by (field; lra). exact HS.
Qed.
Lemma inner_zero n v : inner_prod n v (repeat 0 n) = 0.
Proof.
  unfold inner_prod. apply sumR_zero. intros a Ha. rewrite nth_repeat. ring.
Qed.
Theorem train_modes (self : LinRegressor R) X y : mwf X -> (0 < nrows X)%nat -> length y = nrows X ->
  exists w j, lr_train_with_optimization self X y = ({| lr_parameters := Some w |}, Ok tt) /\ length w = S (mcols X) /\ (j <= 100)%nat /\
    (forall q v lambda, best_fit X y q -> mode X v lambda ->
      inner_prod (S (mcols X)) v w = (1 - (1 - 3 / 10 * lambda) ^ j) * inner_prod (S (mcols X)) v q) /\
    (j = 100%nat \/ (j = 0%nat /\ rss X y w < 2 * INR (nrows X) * / 10 ^ 20) \/
     exists w' j', j = S j' /\ shrunk X y (3 / 10) j' (repeat 0 (S (mcols X))) w' /\ Rabs (rss X y w' - rss X y w) < 2 * INR (nrows X) * / 10 ^ 20).
Proof.
  intros W Hn Ly. destruct (gd_modes gd_default X y (repeat 0 (S (mcols X))) W Hn Ly (repeat_length _ _)) as (w & j & E & Lw & Hj & HM & HS).
  assert (EA : gd_alpha (@gd_default R NumR) = 3 / 10) by (unfold gd_default; cbn; lra). rewrite EA in *.
  exists w, j. unfold lr_train_with_optimization. change (mcols (with_ones X)) with (S (mcols X)). change (@nzero R NumR) with 0. rewrite E.
  split; [reflexivity|]. split; [exact Lw|]. split; [exact Hj|]. split; [|exact HS].
  intros q v lambda HQ HV. specialize (HM q v lambda HQ HV). unfold offset in HM. rewrite inner_zero in HM. lra.
Qed.
