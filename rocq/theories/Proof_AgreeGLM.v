(** * Data that agree with the answers of a generalised linear model with normal errors (C193) *)
From Coq Require Import List Arith Lia Bool Reals Lra.
From Verif Require Import Base BaseLemmas Num NumFn Linalg LinalgR MatR Model_Regression Spec_Regression Model_GLM Spec_GLM Spec_Equiv Proof_Equiv Spec_Succeeds Proof_Succeeds Proof_Oracles Proof_SucceedsEx
  Spec_Agree Proof_Agree.
Import ListNotations.
Local Open Scope R_scope.

Section AgreeGLM.
  Variables X Z : matrix R.
  Hypothesis W : mwf X.
  Hypothesis WZ : mwf Z.
  Hypothesis C : mcols Z = mcols X.
  Lemma rss_stacked y t q : length y = nrows X -> rss (stacked X Z) (y ++ t) q = rss X y q + rss Z t q.
  Proof.
    intros Ly. unfold rss. rewrite (stacked_nrows X Z), sumR_app. f_equal; apply sumR_ext; intros i Hi.
    - rewrite stacked_old by auto. now rewrite app_nth1 by lia.
    - rewrite stacked_new, app_nth2 by lia. now replace (nrows X + i - length y)%nat with i by lia.
  Qed.
  Lemma rss_own p : rss Z (map (affine p) (mrows Z)) p = 0.
  Proof. unfold rss. apply BaseLemmas.sumR_zero. intros i Hi. rewrite (nth_map _ _ _ 0 []) by exact Hi. ring. Qed.
  Lemma rss_pos A y q : 0 <= rss A y q.
  Proof. unfold rss. apply sumR_ge0. intros i _. apply pow2_ge_0. Qed.
  Lemma ls_stacked y p : length y = nrows X -> is_ls X y p -> is_ls (stacked X Z) (y ++ map (affine p) (mrows Z)) p.
  Proof.
    intros Ly [Lp M]. split; [exact Lp|]. intros q Lq. rewrite !rss_stacked by auto. rewrite rss_own. pose proof (M q Lq). pose proof (rss_pos Z (map (affine p) (mrows Z)) q). lra.
  Qed.
  Lemma determined_stacked x : determined X x -> determined (stacked X Z) x.
  Proof.
    intros (L & D). split; [exact L|]. intros q Lq H. apply D; auto. intros r Hr. apply H. unfold stacked. cbn [mrows]. apply in_or_app. now left.
  Qed.
  Theorem glm_agree inverse y t (s s' m m' : GenLinearModel R) : inverse_sound inverse ->
    glm_train inverse Normal s X y = (m, Ok tt) -> glm_predict Normal m Z = Ok t -> glm_train inverse Normal s' (stacked X Z) (y ++ t) = (m', Ok tt) ->
    forall Q, mwf Q -> mcols Q = mcols X -> Forall (determined X) (mrows Q) -> glm_predict Normal m' Q = glm_predict Normal m Q.
  Proof.
    intros S T P T' Q WQ CQ D. destruct (glm_ls _ _ _ _ _ S W T) as (Ly & p & E & H). rewrite (glm_says m X y p Z E H WZ C) in P. injection P as <-.
    destruct (glm_ls _ _ _ _ _ S (stacked_wf X Z W WZ C) T') as (_ & p' & E' & H'). rewrite (glm_says m X y p Q E H WQ CQ), (glm_says m' _ _ p' Q E' H' WQ CQ).
    f_equal. apply map_ext_in. intros x Hx. apply (ls_determined _ _ p' p x H' (ls_stacked y p Ly H)). apply determined_stacked. exact (proj1 (Forall_forall _ _) D x Hx).
  Qed.
End AgreeGLM.

(** ** A concrete case *)
Lemma spans_determined X x : mwf X -> spans X -> length x = mcols X -> determined X x.
Proof.
  intros W S L. split; [exact L|]. intros q Lq H. rewrite (S q Lq H). unfold affine. rewrite BaseLemmas.sumR_zero; [rewrite nth_repeat; ring|]. intros k _. rewrite nth_repeat. ring.
Qed.
Lemma agree_glm_case : exists m m' t, glm_train inverse_any Normal glm_new Tri [1; 5; 2] = (m, Ok tt) /\ glm_predict Normal m Line = Ok t /\
  glm_train inverse_any Normal glm_new (stacked Tri Line) ([1; 5; 2] ++ t) = (m', Ok tt) /\ Forall (determined Tri) (mrows Line).
Proof.
  pose proof (proj2 (proj1 (glm_succeeds inverse_any Normal glm_new Tri [1; 5; 2] inverse_any_exact Tri_wf (cf_normal _))) (conj eq_refl Tri_spans)) as T.
  destruct (glm_train inverse_any Normal glm_new Tri [1; 5; 2]) as [m r] eqn:E. cbn in T. subst r.
  destruct (glm_ls _ _ _ _ _ (proj1 inverse_any_exact) Tri_wf E) as (_ & p & Ep & H).
  pose proof (glm_says m Tri _ p Line Ep H Line_wf eq_refl) as P.
  pose proof (proj2 (proj1 (glm_succeeds inverse_any Normal glm_new (stacked Tri Line) ([1; 5; 2] ++ map (affine p) (mrows Line)) inverse_any_exact (stacked_wf _ _ Tri_wf Line_wf eq_refl) (cf_normal _))) (conj eq_refl (stacked_spans Tri Line Tri_spans))) as T.
  destruct (glm_train inverse_any Normal glm_new (stacked Tri Line) _) as [m' r] eqn:E'. cbn in T. subst r.
  exists m, m', (map (affine p) (mrows Line)). repeat split; auto. apply Forall_forall. intros x Hx. apply spans_determined; [exact Tri_wf|exact Tri_spans|exact (proj1 (Forall_forall _ _) Line_wf x Hx)].
Qed.
