(** Lemmas for [Props_GLM]: training runs and fixed points. *)
From Coq Require Import List Arith Lia Bool Reals Lra.
From Verif Require Import Base BaseLemmas Num NumFn Linalg LinalgR Spec_Calc CalcR MatR Proof_KMeans Model_Optim Proof_Optim Proof_Optim2
  Proof_Toolkit Model_Regression Spec_Regression Proof_Regression Model_GLM Spec_GLM Proof_GLM.
Import ListNotations.
Local Open Scope R_scope.

Lemma nth_repeat_lt {A} (a d : A) n i : (i < n)%nat -> nth i (repeat a n) d = a.
Proof. revert i. induction n as [|n IH]; intros [|i] H; cbn; try lia; auto. apply IH. lia. Qed.
Lemma tiny_R n : @tiny R NumR n = 1 / 10 ^ n.
Proof. unfold tiny. cbn [ndiv NumR nonev]. now rewrite pow10_R. Qed.
Lemma tiny_pos n : 0 < @tiny R NumR n.
Proof. rewrite tiny_R. apply Rdiv_lt_0_compat; [lra|]. apply pow_lt; lra. Qed.
Lemma vadd_zeros n (v : list R) : length v = n -> vadd (repeat 0 n) v = v.
Proof. revert v. induction n as [|n IH]; intros [|a v] H; try discriminate; auto. cbn. f_equal; [lra|]. apply IH. now injection H. Qed.
Lemma diff_self (v : list R) : vsum (map nabs (vsub v v)) = 0.
Proof.
  unfold vsum. assert (H : forall c, fold_left nadd (map nabs (vsub v v)) c = c).
  { induction v as [|a v IH]; intro c; [reflexivity|]. cbn. rewrite Rminus_diag_eq by reflexivity. rewrite Rabs_R0, Rplus_0_r. apply IH. }
  apply H.
Qed.
Lemma mv_zero_resid Z w b : weighted_normal Z w (mat_vec Z b) b.
Proof. reflexivity. Qed.

(** A run whose first working response has no correction stops at its first estimate. *)
Lemma loop_start inverse cr Z y mu z w fuel beta r : inverse_sound inverse -> mwf Z ->
  (forall m, length m = nrows Z -> exists w, cr_working_weight cr m = Ok w /\ length w = nrows Z) ->
  cr_working_weight cr mu = Ok w -> length w = nrows Z -> length z = nrows Z ->
  cr_y_bar cr y mu = repeat 0 (nrows Z) ->
  glm_loop (S (S fuel)) inverse cr Z y mu z beta = Ok r -> length r = mcols Z /\ weighted_normal Z w z r.
Proof.
  intros Si W Hw Ew Lw Lz Ey H. cbn [glm_loop] in H.
  destruct (glm_pass inverse cr Z y mu z) as [[[b mu1] z1]| |] eqn:P1; try discriminate. cbn [rbind] in H.
  destruct (pass_R _ _ _ _ _ _ _ _ _ _ Si W Ew Lw Lz P1) as [Lb [Nb [_ [Em Ez]]]].
  rewrite Ey, vadd_zeros in Ez by apply mat_vec_length'.
  destruct (nltb _ _); [apply Ok_inj in H; subst r; auto|].
  destruct (glm_pass inverse cr Z y mu1 z1) as [[[b2 mu2] z2]| |] eqn:P2; try discriminate. cbn [rbind] in H.
  assert (L1 : length mu1 = nrows Z) by (rewrite Em, map_length; apply mat_vec_length').
  assert (Lz1 : length z1 = nrows Z) by (rewrite Ez; apply mat_vec_length').
  destruct (Hw mu1 L1) as [w2 [Ew2 Lw2]].
  destruct (pass_R _ _ _ _ _ _ _ _ _ _ Si W Ew2 Lw2 Lz1 P2) as [Lb2 [Nb2 [U2 [_ _]]]].
  assert (Eb : b = b2). { apply U2; auto. rewrite Ez. apply mv_zero_resid. } subst b2.
  rewrite diff_self in H.
  assert (T : @nltb R NumR 0 (tiny 10) = true). { apply nltb_R'. apply tiny_pos. }
  change (@nltb R NumR 0 (tiny 10)) with (nltb 0 (tiny 10)) in T. rewrite T in H. apply Ok_inj in H. subst r. auto.
Qed.

Lemma train_inv {F} {N : Num F} {NF : NumFn F} inverse (cr : Criterion F) self X y self' : glm_train inverse cr self X y = (self', Ok tt) ->
  nrows X = length y /\ exists p, glm_parameters self' = Some p /\
   glm_loop 8 inverse cr (with_ones X) y (cr_initialize_mu cr y) (cr_initialize_mu cr y) (repeat nzero (S (mcols X))) = Ok p.
Proof.
  unfold glm_train. destruct (Nat.eqb_spec (nrows X) (length y)) as [E|E]; cbn [negb]; [|discriminate].
  destruct (glm_loop _ _ _ _ _ _ _ _) as [b| |] eqn:L; intro H; try discriminate. split; auto. exists b. split; auto.
  apply (f_equal fst) in H. cbn [fst] in H. now subst self'.
Qed.

Lemma ybar_zero link (y : list R) n : length y = n -> default_y_bar link y y = repeat 0 n.
Proof. revert y. induction n as [|n IH]; intros [|a y] H; try discriminate; auto. cbn. f_equal; [ring|]. apply IH. now injection H. Qed.
Lemma normal_weight (mu : list R) : default_weight Identity (fun _ => nonev) mu = repeat 1 (length mu).
Proof. induction mu as [|a mu IH]; [reflexivity|]. cbn. f_equal; [field|exact IH]. Qed.
Lemma wrss_ones X y p n : n = nrows X -> wrss (repeat 1 n) X y p = rss X y p.
Proof. intros ->. unfold wrss, rss. apply sumR_ext. intros i Hi. rewrite nth_repeat_lt by auto. ring. Qed.

Theorem glm_normal_ls inverse self X y self' : inverse_sound inverse -> mwf X -> glm_train inverse Normal self X y = (self', Ok tt) ->
  length y = nrows X /\ exists p, glm_parameters self' = Some p /\ length p = S (mcols X) /\
    forall q, length q = S (mcols X) -> rss X y p <= rss X y q.
Proof.
  intros Si W H. destruct (train_inv _ _ _ _ _ _ H) as [Ly [p [Ep L]]]. split; auto. exists p. split; auto.
  set (Z := with_ones X) in *. assert (RZ : nrows Z = nrows X) by apply with_ones_nrows.
  destruct (loop_start inverse Normal Z y y y (repeat 1 (nrows X)) 6 (repeat nzero (S (mcols X))) p Si (with_ones_wf _ W)) as [Lp Np]; auto.
  - intros m Lm. exists (repeat 1 (length m)). cbn [cr_working_weight Normal]. rewrite normal_weight. split; auto. now rewrite repeat_length.
  - cbn [cr_working_weight Normal]. rewrite normal_weight. now rewrite Ly.
  - rewrite repeat_length. auto.
  - lia.
  - cbn [cr_y_bar Normal]. apply ybar_zero. lia.
  - split; [exact Lp|]. intros q Lq. rewrite <- !(wrss_ones _ _ _ (nrows X)) by auto.
    apply wls_min; auto. now rewrite repeat_length. intros i Hi. rewrite nth_repeat_lt by auto. lra.
Qed.

Lemma poisson_init (y : list R) : (forall i, (i < length y)%nat -> 1 / 10 ^ 10 <= nth i y 0) -> cr_initialize_mu Poisson y = y.
Proof.
  intros H. cbn [cr_initialize_mu Poisson]. rewrite <- (map_id y) at 2. apply map_ext_in. intros a Ia.
  apply (In_nth _ _ 0) in Ia. destruct Ia as [i [Hi <-]]. specialize (H i Hi).
  replace (nltb (nth i y 0) (tiny 10)) with false; [reflexivity|]. symmetry. apply nltb_R_false. now rewrite tiny_R.
Qed.
Theorem glm_poisson_wls inverse self X y self' : inverse_sound inverse -> mwf X ->
  (forall i, (i < length y)%nat -> 1 / 10 ^ 10 <= nth i y 0) -> glm_train inverse Poisson self X y = (self', Ok tt) ->
  length y = nrows X /\ exists p, glm_parameters self' = Some p /\ length p = S (mcols X) /\
    forall q, length q = S (mcols X) -> wrss y X y p <= wrss y X y q.
Proof.
  intros Si W Py H. destruct (train_inv _ _ _ _ _ _ H) as [Ly [p [Ep L]]]. split; auto. exists p. split; auto.
  rewrite poisson_init in L by auto.
  set (Z := with_ones X) in *. assert (RZ : nrows Z = nrows X) by apply with_ones_nrows.
  destruct (loop_start inverse Poisson Z y y y y 6 (repeat nzero (S (mcols X))) p Si (with_ones_wf _ W)) as [Lp Np]; auto; try lia.
  - intros m Lm. exists m. auto.
  - cbn [cr_y_bar Poisson]. apply ybar_zero. lia.
  - split; [exact Lp|]. intros q Lq. apply wls_min; auto. intros i Hi. assert (Hi' : (i < length y)%nat) by lia. specialize (Py i Hi').
    pose proof (tiny_pos 10) as T. rewrite tiny_R in T. lra.
Qed.

Lemma ybar_length {A B C} (f : A -> B -> C) u v : length u = length v -> length (map2 f u v) = length u.
Proof. revert v. induction u as [|a u IH]; intros [|b v] H; try discriminate; auto. cbn. f_equal. apply IH. now injection H. Qed.
Lemma ybar_nth (f : R -> R -> R) u v i : (i < length u)%nat -> (i < length v)%nat -> nth i (map2 f u v) 0 = f (nth i u 0) (nth i v 0).
Proof. revert v i. induction u as [|a u IH]; intros [|b v] [|i] H H'; cbn in *; try lia; auto. apply IH; lia. Qed.

(** Fixed points. *)
Lemma fixed_point_score inverse cr X y mu z w b : inverse_sound inverse -> mwf X -> length y = nrows X ->
  cr_working_weight cr mu = Ok w -> length w = nrows X -> length z = nrows X ->
  glm_pass inverse cr (with_ones X) y mu z = Ok (b, mu, z) -> length (cr_y_bar cr y mu) = nrows X ->
  length b = S (mcols X) /\ mu = map (lk_inv (cr_link cr)) (mat_vec (with_ones X) b) /\
  forall d, length d = S (mcols X) ->
    sumR (nrows X) (fun i => nth i w 0 * nth i (cr_y_bar cr y mu) 0 * nth i (mat_vec (with_ones X) d) 0) = 0.
Proof.
  intros Si W Ly Ew Lw Lz P Lyb. set (Z := with_ones X) in *. assert (RZ : nrows Z = nrows X) by apply with_ones_nrows.
  assert (Lw' : length w = nrows Z) by lia. assert (Lz' : length z = nrows Z) by lia.
  destruct (pass_R _ _ _ _ _ _ _ _ _ _ Si (with_ones_wf _ W) Ew Lw' Lz' P) as [Lb [Nb [_ [Em Ez]]]].
  split; auto. split; auto. intros d Ld.
  pose proof (weighted_normal_orth Z w z b d (with_ones_wf _ W) Lw' Lz' Lb Ld Nb) as O.
  rewrite RZ in O. refine (eq_trans _ O). apply sumR_ext. intros i Hi. f_equal. f_equal. rewrite Ez.
  assert (Lm : length (mat_vec Z b) = nrows X) by (rewrite mat_vec_length'; auto).
  assert (Nv : nth i (vadd (cr_y_bar cr y mu) (mat_vec Z b)) 0 = nth i (cr_y_bar cr y mu) 0 + nth i (mat_vec Z b) 0).
  { apply (ybar_nth Rplus); lia. }
  fold Z. rewrite Nv. ring.
Qed.
Lemma fixed_mle inverse cr A X y mu z w b : inverse_sound inverse -> mwf X -> length y = nrows X ->
  cr_working_weight cr mu = Ok w -> length w = nrows X -> length z = nrows X ->
  glm_pass inverse cr (with_ones X) y mu z = Ok (b, mu, z) -> length (cr_y_bar cr y mu) = nrows X ->
  (forall a b : R, A a + lk_inv (cr_link cr) a * (b - a) <= A b) ->
  (forall i, (i < nrows X)%nat -> nth i w 0 * nth i (cr_y_bar cr y mu) 0 = nth i y 0 - nth i mu 0) -> is_mle A X y b.
Proof.
  intros Si W Ly Ew Lw Lz P Lyb Cv Sc. destruct (fixed_point_score _ _ _ _ _ _ _ _ Si W Ly Ew Lw Lz P Lyb) as [Lb [Em O]].
  apply (mle_of_score A (lk_inv (cr_link cr))); auto. intros d Ld. refine (eq_trans _ (O d Ld)). apply sumR_ext. intros i Hi. f_equal.
  rewrite Sc by auto. f_equal. rewrite Em. symmetry. apply nth_map. rewrite mat_vec_length'. now rewrite with_ones_nrows.
Qed.
Lemma fixed_mu_length inverse cr X y (mu z b : list R) :
  glm_pass inverse cr (with_ones X) y mu z = Ok (b, mu, z) -> mu = map (lk_inv (cr_link cr)) (mat_vec (with_ones X) b).
Proof.
  intros P. unfold glm_pass in P. destruct (cr_working_weight cr mu); try discriminate. cbn [rbind] in P.
  destruct (inverse _); try discriminate. apply Ok_inj in P. pose proof (f_equal (fun t => snd (fst t)) P) as H2.
  pose proof (f_equal (fun t => fst (fst t)) P) as H1. cbn [fst snd] in H1, H2. rewrite H1 in H2. now symmetry.
Qed.
Theorem fixed_normal inverse X y mu z b : inverse_sound inverse -> mwf X -> length y = nrows X -> length mu = nrows X -> length z = nrows X ->
  glm_pass inverse Normal (with_ones X) y mu z = Ok (b, mu, z) -> is_mle normal_cumulant X y b.
Proof.
  intros Si W Ly Lm Lz P.
  apply (fixed_mle inverse Normal normal_cumulant X y mu z (repeat 1 (length mu)) b); auto.
  - cbn [cr_working_weight Normal]. now rewrite normal_weight.
  - now rewrite repeat_length.
  - cbn [cr_y_bar Normal]. unfold default_y_bar. rewrite ybar_length; lia.
  - exact normal_convex.
  - intros i Hi. rewrite nth_repeat_lt by lia. cbn [cr_y_bar Normal]. unfold default_y_bar. rewrite ybar_nth by lia. cbn. ring.
Qed.
Theorem fixed_poisson inverse X y mu z b : inverse_sound inverse -> mwf X -> length y = nrows X -> length mu = nrows X -> length z = nrows X ->
  glm_pass inverse Poisson (with_ones X) y mu z = Ok (b, mu, z) -> is_mle poisson_cumulant X y b.
Proof.
  intros Si W Ly Lm Lz P. pose proof (fixed_mu_length _ _ _ _ _ _ _ P) as Em.
  apply (fixed_mle inverse Poisson poisson_cumulant X y mu z mu b); auto.
  - cbn [cr_y_bar Poisson]. unfold default_y_bar. rewrite ybar_length; lia.
  - exact poisson_convex.
  - intros i Hi. cbn [cr_y_bar Poisson]. unfold default_y_bar. rewrite ybar_nth by lia. cbn [lk_grad Log nmul nsub ndiv nonev NumR].
    assert (nth i mu 0 <> 0).
    { rewrite Em. cbn [lk_inv cr_link Poisson Log nexp NumFnR]. rewrite (nth_map exp _ _ _ 0).
      apply Rgt_not_eq, exp_pos. rewrite mat_vec_length', with_ones_nrows. auto. }
    now field.
Qed.
Theorem fixed_bernoulli inverse X y mu z b : inverse_sound inverse -> mwf X -> length y = nrows X -> length mu = nrows X -> length z = nrows X ->
  (forall i, (i < nrows X)%nat -> 1 / 10 ^ 5 <= nth i mu 0 * (1 - nth i mu 0) /\
     (nth i y 0 = nth i mu 0 \/ 1 / 10 ^ 15 <= Rabs (nth i y 0 - nth i mu 0))) ->
  glm_pass inverse Bernoulli (with_ones X) y mu z = Ok (b, mu, z) -> is_mle bernoulli_cumulant X y b.
Proof.
  intros Si W Ly Lm Lz Hc P.
  apply (fixed_mle inverse Bernoulli bernoulli_cumulant X y mu z (map (fun m => clip_weight (bern_variance m)) mu) b); auto.
  - now rewrite map_length.
  - cbn [cr_y_bar Bernoulli]. unfold bern_y_bar. rewrite ybar_length; lia.
  - exact bernoulli_convex.
  - intros i Hi. destruct (Hc i Hi) as [Hv Hy]. rewrite (nth_map (fun m => clip_weight (bern_variance m)) _ _ _ 0) by lia.
    cbn [cr_y_bar Bernoulli]. unfold bern_y_bar. rewrite ybar_nth by lia. cbv zeta.
    set (m := nth i mu 0) in *. set (t := nth i y 0) in *. cbn [nsub NumR nabs].
    pose proof (tiny_pos 5) as T5. pose proof (tiny_pos 15) as T15. rewrite tiny_R in T5, T15.
    assert (V : bern_variance m = m * (1 - m)).
    { unfold bern_variance. cbv zeta. cbn [nsub nmul NumR nabs nonev]. rewrite Rabs_pos_eq by lra.
      replace (nltb (m * (1 - m)) (tiny 10)) with false; [reflexivity|]. symmetry. apply nltb_R_false. rewrite tiny_R.
      apply Rle_trans with (1 / 10 ^ 5); [|lra]. lra. }
    assert (Cw : clip_weight (m * (1 - m)) = m * (1 - m)).
    { unfold clip_weight. cbn [nabs NumR]. rewrite Rabs_pos_eq by lra.
      replace (nltb (m * (1 - m)) (tiny 5)) with false; [reflexivity|]. symmetry. apply nltb_R_false. rewrite tiny_R. lra. }
    rewrite V, Cw. destruct Hy as [Hy|Hy].
    + rewrite Hy. replace (m - m) with 0 by ring. rewrite Rabs_R0.
      replace (nltb 0 (tiny 15)) with true. { cbn [nzero NumR]. ring. } symmetry. apply nltb_R'. apply tiny_pos.
    + replace (nltb (Rabs (t - m)) (tiny 15)) with false.
      2:{ symmetry. apply nltb_R_false. rewrite tiny_R. lra. }
      cbn [lk_grad Logit nmul nsub ndiv nonev NumR]. field. split; intro E; rewrite E in *; lra.
Qed.
