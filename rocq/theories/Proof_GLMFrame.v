(** * Proofs: generalised linear models in other frames *)
From Coq Require Import List Arith Reals Lra Lia Bool.
From Verif Require Import Base BaseLemmas Num NumFn Linalg LinalgR Spec_Calc CalcR MatR Model_Regression Spec_Regression Proof_Regression Model_GLM Spec_GLM Proof_GLM Proof_GLM2 Proof_GLMEx Spec_Equiv Proof_Equiv Spec_GLMFrame.
Import ListNotations.
Local Open Scope R_scope.

Lemma crit_init cr y : library_criterion cr -> length (cr_initialize_mu cr y) = length y.
Proof. intros []; cbn; unfold bern_mu, default_mu; rewrite ?map_length; reflexivity. Qed.
Lemma rmap_len {A B} (f : A -> res B) l r : rmap f l = Ok r -> length r = length l.
Proof.
  revert r; induction l as [|a l IH]; intros r H; cbn in H; [injection H as <-; reflexivity|]. destruct (f a); try discriminate. cbn in H.
  destruct (rmap f l); try discriminate. cbn in H. injection H as <-. cbn. f_equal. now apply IH.
Qed.
Lemma crit_weight cr mu w : library_criterion cr -> cr_working_weight cr mu = Ok w -> length w = length mu.
Proof.
  intros [] H; cbn in H.
  - injection H as <-. now rewrite map_length.
  - apply rmap_len in H. rewrite H, combine_length, seq_length. lia.
  - injection H as <-. unfold default_weight. now rewrite map_length.
  - injection H as <-. reflexivity.
Qed.
Lemma crit_ybar cr y mu : library_criterion cr -> length mu = length y -> length (cr_y_bar cr y mu) = length y.
Proof. intros [] H; cbn; unfold bern_y_bar, default_y_bar; rewrite map2_length; lia. Qed.

(** Normal equations in both notations. *)
Lemma solves_normal X w z p : mwf X -> length w = nrows X -> length z = nrows X -> length p = S (mcols X) -> weighted_normal (with_ones X) w z p -> solves X w z p.
Proof.
  intros W Lw Lz Lp H. split; [exact Lp|]. intros q Lq.
  pose proof (weighted_normal_orth (with_ones X) w z p q (with_ones_wf X W)) as K. rewrite with_ones_nrows in K. specialize (K Lw Lz Lp Lq H).
  etransitivity; [|exact K]. apply sumR_ext. intros i Hi. rewrite !eta_affine by auto. reflexivity.
Qed.
Lemma normal_solves X w z p : mwf X -> length w = nrows X -> length z = nrows X -> solves X w z p -> weighted_normal (with_ones X) w z p.
Proof.
  intros W Lw Lz (Lp & H). unfold weighted_normal. pose proof (with_ones_wf X W) as WZ.
  assert (Lm : length (mat_vec (with_ones X) p) = nrows X) by (rewrite mat_vec_length'; apply with_ones_nrows).
  assert (Ct : mcols (transpose (with_ones X)) = nrows X) by (rewrite transpose_mcols; apply with_ones_nrows).
  apply vec_ext; [now rewrite !mat_vec_length'|]. rewrite mat_vec_length', transpose_nrows. intros j Hj.
  assert (K : forall u, length u = nrows X -> nth j (mat_vec (transpose (with_ones X)) u) 0 = dot u (mat_vec (with_ones X) (map (fun i => if (i =? j)%nat then 1 else 0) (seq 0 (mcols (with_ones X)))))).
  { intros u Lu. rewrite dot_transpose by (rewrite ?with_ones_nrows, ?map_length, ?seq_length; auto).
    rewrite (dot_sumR (mcols (with_ones X))) by (rewrite ?mat_vec_length', ?transpose_nrows, ?map_length, ?seq_length; auto).
    rewrite (sumR_ext _ _ (fun i => if (j =? i)%nat then nth i (mat_vec (transpose (with_ones X)) u) 0 else 0)).
    - symmetry. now apply (Proof_KMeans.sumR_pick (mcols (with_ones X)) (fun i => nth i (mat_vec (transpose (with_ones X)) u) 0)).
    - intros i Hi. rewrite (seq_map_nth (fun i => if (i =? j)%nat then 1 else 0)) by auto. rewrite Nat.eqb_sym. destruct (j =? i)%nat; ring. }
  rewrite !K by (rewrite velemul_length; lia). set (e := map _ _).
  assert (Le : length e = S (mcols X)) by (unfold e; rewrite map_length, seq_length; reflexivity).
  specialize (H e Le). rewrite !(dot_sumR (nrows X)); try (rewrite ?velemul_length, ?mat_vec_length', ?with_ones_nrows; lia).
  symmetry. apply Rminus_diag_uniq. rewrite <- Proof_KMeans.sumR_minus. etransitivity; [|exact H]. apply sumR_ext. intros i Hi. cbn beta.
  rewrite !velemul_nth by lia. rewrite !eta_affine by auto. ring.
Qed.

Lemma pass_fit inverse cr X y mu z b mu' z' : library_criterion cr -> inverse_sound inverse -> mwf X -> length y = nrows X -> length mu = nrows X -> length z = nrows X ->
  glm_pass inverse cr (with_ones X) y mu z = Ok (b, mu', z') ->
  exists w, cr_working_weight cr mu = Ok w /\ length w = nrows X /\ weighted_fit X w z b /\ length b = S (mcols X) /\
    mu' = map (fun x => lk_inv (cr_link cr) (affine b x)) (mrows X) /\ z' = vadd (cr_y_bar cr y mu) (map (affine b) (mrows X)).
Proof.
  intros Lc Si W Ly Lm Lz P. assert (Ew : exists w, cr_working_weight cr mu = Ok w).
  { unfold glm_pass in P. destruct (cr_working_weight cr mu) as [w| |]; try discriminate. eauto. }
  destruct Ew as (w & Ew). pose proof (crit_weight cr mu w Lc Ew) as Lw.
  destruct (pass_R inverse cr (with_ones X) y mu z w b mu' z' Si (with_ones_wf X W) Ew) as (Lb & Nb & U & Em & Ez); try (rewrite with_ones_nrows; lia); auto.
  cbn [with_ones mcols] in Lb. exists w. split; [exact Ew|]. split; [lia|]. split; [|split; [exact Lb|]].
  - split; [apply solves_normal; auto; lia|]. intros p' Hp. apply U; [apply Hp|]. apply normal_solves; auto; lia.
  - rewrite mat_vec_ones in Em, Ez by auto. rewrite map_map in Em. split; assumption.
Qed.
Lemma ap_lengths cr X y k p mu z : library_criterion cr -> length y = nrows X -> after_pass cr X y k p mu z -> length p = S (mcols X) /\ length mu = nrows X /\ length z = nrows X /\ (0 < k)%nat.
Proof.
  intros Lc Ly H. induction H as [w p Ew [[Lp _] _]|k p mu z w p' H IH Ew [[Lp _] _]].
  - split; [exact Lp|]. rewrite map_length. split; [reflexivity|]. unfold vadd. rewrite map2_length, map_length, crit_ybar, Ly by (auto; apply crit_init; auto). unfold nrows. split; lia.
  - destruct IH as (_ & Lm & Lz & _). split; [exact Lp|]. rewrite map_length. split; [reflexivity|]. unfold vadd. rewrite map2_length, map_length, crit_ybar, Ly by (auto; congruence). unfold nrows. split; lia.
Qed.
Lemma moved_test (p q : list R) : length p = length q -> nltb (vsum (map nabs (vsub p q))) (tiny 10) = false <-> moved_on p q.
Proof.
  intros L. unfold moved_on. assert (E : vsum (map nabs (vsub p q)) = sumR (length q) (fun j => Rabs (nth j p 0 - nth j q 0))).
  { rewrite vsum_R, rsum_nth, map_length. unfold vsub. rewrite map2_length, L, Nat.min_id. apply sumR_ext. intros j Hj.
    rewrite (nth_indep _ 0 (nabs (nsub 0 0))) by (rewrite map_length, map2_length; lia). rewrite map_nth. rewrite (map2_nth nsub p q j 0 0) by lia. reflexivity. }
  rewrite E, tiny_R. split; intros H.
  - apply Proof_KMeans.nltb_R_false in H. unfold Rdiv in H. lra.
  - apply Proof_KMeans.nltb_R_false. unfold Rdiv. lra.
Qed.
(** From pass [k] with coefficients [p] the loop goes on to some later pass. *)
Lemma loop_path inverse cr X y : library_criterion cr -> inverse_sound inverse -> mwf X -> length y = nrows X ->
  forall fuel k p mu z q, after_pass cr X y k p mu z -> glm_loop fuel inverse cr (with_ones X) y mu z p = Ok q ->
  exists k' path, (k <= k' <= k + fuel)%nat /\ path k = p /\ path k' = q /\ (forall j, (k <= j <= k')%nat -> exists mu z, after_pass cr X y j (path j) mu z) /\
    (forall j, (k <= j)%nat -> (S j < k')%nat -> moved_on (path j) (path (S j))) /\ ((k' < k + fuel)%nat -> (k < k')%nat /\ ~ moved_on (path (k' - 1)%nat) (path k')).
Proof.
  intros Lc Si W Ly. induction fuel as [|fuel IH]; intros k p mu z q Hk E; cbn [glm_loop] in E.
  { injection E as ->. exists k, (fun _ => q). split; [lia|]. split; [reflexivity|]. split; [reflexivity|]. split; [intros j Hj; replace j with k by lia; eauto|]. split; intros; lia. }
  destruct (ap_lengths cr X y k p mu z Lc Ly Hk) as (Lp & Lm & Lz & Pk).
  destruct (glm_pass inverse cr (with_ones X) y mu z) as [[[b mu'] z']| |] eqn:P; cbn [rbind] in E; try discriminate.
  destruct (pass_fit inverse cr X y mu z b mu' z' Lc Si W Ly Lm Lz P) as (w & Ew & Lw & Fb & Lb & Em & Ez).
  assert (Hb : after_pass cr X y (S k) b mu' z') by (subst mu' z'; eapply ap_next; eauto).
  destruct (nltb (vsum (map nabs (vsub p b))) (tiny 10)) eqn:T.
  - injection E as ->. exists (S k), (fun j => if (j =? k)%nat then p else q). rewrite Nat.eqb_refl. destruct (Nat.eqb_spec (S k) k) as [?|_]; [lia|].
    split; [lia|]. split; [reflexivity|]. split; [reflexivity|]. split.
    { intros j Hj. destruct (Nat.eqb_spec j k) as [->|N]; [eauto|]. replace j with (S k) by lia. eauto. }
    split; [intros; lia|]. intros _. split; [lia|]. replace (S k - 1)%nat with k by lia. rewrite Nat.eqb_refl.
    intros M. apply moved_test in M; [|congruence]. congruence.
  - destruct (IH (S k) b mu' z' q Hb E) as (k' & path & B & P0 & P1 & A & Mv & St).
    exists k', (fun j => if (j =? k)%nat then p else path j). rewrite Nat.eqb_refl.
    assert (N : forall j, (k < j)%nat -> (j =? k)%nat = false) by (intros j Hj; apply Nat.eqb_neq; lia).
    split; [lia|]. split; [reflexivity|]. rewrite (N k') by lia. split; [exact P1|].
    assert (Mv' : forall j, (k <= j)%nat -> (S j < k')%nat -> moved_on (if (j =? k)%nat then p else path j) (if (S j =? k)%nat then p else path (S j))).
    { intros j Hj Hj'. rewrite (N (S j)) by lia. destruct (Nat.eqb_spec j k) as [->|Nj]; [rewrite P0; apply moved_test; [congruence|exact T]|apply Mv; lia]. }
    split; [|split; [exact Mv'|]].
    + intros j Hj. destruct (Nat.eqb_spec j k) as [->|Nj]; [eauto|]. apply A; lia.
    + intros Hk'. destruct (Nat.eq_dec k' (S k)) as [->|Nk].
      * destruct (St ltac:(lia)) as (Q & _). lia.
      * destruct (St ltac:(lia)) as (Q & M). split; [lia|]. rewrite (N (k' - 1)%nat) by lia. exact M.
Qed.

Theorem train_path inverse cr self X y self' : library_criterion cr -> inverse_sound inverse -> mwf X -> glm_train inverse cr self X y = (self', Ok tt) ->
  length y = nrows X /\ exists k path, (1 <= k <= 8)%nat /\ glm_parameters self' = Some (path k) /\ path 0%nat = repeat 0 (S (mcols X)) /\
    (forall j, (1 <= j <= k)%nat -> exists mu z, after_pass cr X y j (path j) mu z) /\
    (forall j, (S j < k)%nat -> moved_on (path j) (path (S j))) /\ ((k < 8)%nat -> ~ moved_on (path (k - 1)%nat) (path k)).
Proof.
  intros Lc Si W T. destruct (train_inv inverse cr self X y self' T) as (Ly & p & Ep & E). symmetry in Ly. split; [exact Ly|].
  pose proof (crit_init cr y Lc) as Li. cbn [glm_loop] in E. set (mu0 := cr_initialize_mu cr y) in *.
  destruct (glm_pass inverse cr (with_ones X) y mu0 mu0) as [[[b mu'] z']| |] eqn:P; cbn [rbind] in E; try discriminate.
  destruct (pass_fit inverse cr X y mu0 mu0 b mu' z' Lc Si W Ly ltac:(congruence) ltac:(congruence) P) as (w & Ew & Lw & Fb & Lb & Em & Ez).
  assert (Hb : after_pass cr X y 1 b mu' z') by (subst mu' z'; eapply ap_first; eauto).
  assert (L0 : length (repeat (@nzero R NumR) (S (mcols X))) = length b) by (rewrite repeat_length; congruence).
  destruct (nltb (vsum (map nabs (vsub (repeat nzero (S (mcols X))) b))) (tiny 10)) eqn:M0.
  - injection E as ->. exists 1%nat, (fun j => if (j =? 0)%nat then repeat 0 (S (mcols X)) else p). cbn [Nat.eqb Nat.sub].
    split; [lia|]. split; [exact Ep|]. split; [reflexivity|]. split; [intros j Hj; replace j with 1%nat by lia; cbn [Nat.eqb]; eauto|]. split; [intros; lia|].
    intros _ M. apply (moved_test _ _ L0) in M. congruence.
  - change (glm_loop 7 inverse cr (with_ones X) y mu' z' b = Ok p) in E.
    destruct (loop_path inverse cr X y Lc Si W Ly 7 1 b mu' z' p Hb E) as (k & path & B & P0 & P1 & A & Mv & St).
    exists k, (fun j => if (j =? 0)%nat then repeat 0 (S (mcols X)) else path j).
    assert (N : forall j, (0 < j)%nat -> (j =? 0)%nat = false) by (intros j Hj; apply Nat.eqb_neq; lia).
    split; [lia|]. rewrite (N k) by lia. rewrite P1. split; [exact Ep|]. split; [reflexivity|]. split; [intros j Hj; rewrite (N j) by lia; apply A; lia|]. split.
    + intros j Hj. rewrite (N (S j)) by lia. destruct j as [|j]; cbn [Nat.eqb].
      * rewrite P0. apply moved_test; [exact L0|exact M0].
      * apply Mv; lia.
    + intros Hk. destruct (St ltac:(lia)) as (Q & M). rewrite (N (k - 1)%nat) by lia. rewrite <- P1. exact M.
Qed.

(** ** Frames *)
Lemma ap_pos cr X y p mu z : ~ after_pass cr X y 0 p mu z.
Proof. intros H. inversion H. Qed.

Lemma fit_frame f d' X w z p p' : mwf X -> same_affine (mcols X) d' f -> weighted_fit X w z p -> weighted_fit (map_rows f d' X) w z p' ->
  forall x, length x = mcols X -> affine p' (f x) = affine p x.
Proof.
  intros W (Lf & Fw & Bw) (_ & U) ((Lp' & S') & _) x Lx. cbn [map_rows mcols] in Lp'. destruct (Fw p' Lp') as (q & Lq & Eq).
  assert (Lr : forall i, (i < nrows X)%nat -> length (nth i (mrows X) []) = mcols X). { intros i Hi. unfold mwf in W. rewrite Forall_forall in W. apply W. now apply nth_In. }
  assert (Sq : solves X w z q).
  { split; [exact Lq|]. intros e Le. destruct (Bw e Le) as (e' & Le' & Ee). specialize (S' e' Le'). unfold map_rows, nrows in S'. cbn [mrows] in S'. rewrite map_length in S'.
    etransitivity; [|exact S']. apply sumR_ext. intros i Hi. rewrite (nth_map f (mrows X) i [] []) by exact Hi. rewrite Ee, Eq by (apply Lr; exact Hi). reflexivity. }
  rewrite Eq by auto. now rewrite (U q Sq).
Qed.
Theorem passes_frame cr f d' X y k p p' mu mu' z z' : mwf X -> same_affine (mcols X) d' f -> after_pass cr X y k p mu z -> after_pass cr (map_rows f d' X) y k p' mu' z' ->
  mu' = mu /\ z' = z /\ forall x, length x = mcols X -> affine p' (f x) = affine p x.
Proof.
  intros W Sf H. revert p' mu' z'. assert (Lr : forall x, In x (mrows X) -> length x = mcols X) by (apply Forall_forall; exact W).
  induction H as [w p Ew Fp|k p mu z w q H IH Ew Fp]; intros p' mu' z' H'; inversion H' as [w' p1 Ew' Fp'|k' p1 mu1 z1 w' p2 H1 Ew' Fp']; subst.
  - rewrite Ew in Ew'. injection Ew' as <-. pose proof (fit_frame f d' X w _ p p' W Sf Fp Fp') as E. cbn [map_rows mrows]. rewrite !map_map.
    split; [apply map_ext_in; intros x Hx; rewrite E by auto; reflexivity|]. split; [f_equal; apply map_ext_in; intros x Hx; apply E; auto|exact E].
  - destruct (ap_pos _ _ _ _ _ _ H1).
  - destruct (ap_pos _ _ _ _ _ _ H).
  - destruct (IH p1 mu1 z1 H1) as (-> & -> & _). rewrite Ew in Ew'. injection Ew' as <-. pose proof (fit_frame f d' X w _ q p' W Sf Fp Fp') as E. cbn [map_rows mrows]. rewrite !map_map.
    split; [apply map_ext_in; intros x Hx; rewrite E by auto; reflexivity|]. split; [f_equal; apply map_ext_in; intros x Hx; apply E; auto|exact E].
Qed.

(** Two trained models that made the same number of passes agree everywhere. *)
Theorem trained_frame inverse inverse' cr f d' self self1 X y m m' : library_criterion cr -> inverse_sound inverse -> inverse_sound inverse' -> mwf X -> same_affine (mcols X) d' f ->
  glm_train inverse cr self X y = (m, Ok tt) -> glm_train inverse' cr self1 (map_rows f d' X) y = (m', Ok tt) ->
  exists k k' path path', (1 <= k <= 8)%nat /\ (1 <= k' <= 8)%nat /\ glm_parameters m = Some (path k) /\ glm_parameters m' = Some (path' k') /\
    (forall j x, (1 <= j)%nat -> (j <= k)%nat -> (j <= k')%nat -> length x = mcols X -> affine (path' j) (f x) = affine (path j) x) /\
    (k = k' -> forall Z, mwf Z -> mcols Z = mcols X -> exists out, glm_predict cr m Z = Ok out /\ glm_predict cr m' (map_rows f d' Z) = Ok out) /\
    (path 0%nat = repeat 0 (S (mcols X)) /\ path' 0%nat = repeat 0 (S d') /\
     (forall j, (S j < k)%nat -> moved_on (path j) (path (S j))) /\ ((k < 8)%nat -> ~ moved_on (path (k - 1)%nat) (path k)) /\
     (forall j, (S j < k')%nat -> moved_on (path' j) (path' (S j))) /\ ((k' < 8)%nat -> ~ moved_on (path' (k' - 1)%nat) (path' k'))).
Proof.
  intros Lc Si Si' W Sf T T'. destruct (train_path inverse cr self X y m Lc Si W T) as (Ly & k & path & B & Ep & P0 & A & Mv & St).
  destruct (train_path inverse' cr self1 (map_rows f d' X) y m' Lc Si' (map_rows_wf f d' X W (proj1 Sf)) T') as (Ly' & k' & path' & B' & Ep' & P0' & A' & Mv' & St').
  exists k, k', path, path'. split; [exact B|]. split; [exact B'|]. split; [exact Ep|]. split; [exact Ep'|].
  assert (Eq : forall j x, (1 <= j)%nat -> (j <= k)%nat -> (j <= k')%nat -> length x = mcols X -> affine (path' j) (f x) = affine (path j) x).
  { intros j x H1 H2 H3 Lx. destruct (A j ltac:(lia)) as (mu & z & Hp). destruct (A' j ltac:(lia)) as (mu' & z' & Hp').
    exact (proj2 (proj2 (passes_frame cr f d' X y j _ _ _ _ _ _ W Sf Hp Hp')) x Lx). }
  split; [exact Eq|]. split; [|repeat (split; auto)].
  intros <- Z WZ CZ. exists (map (fun x => lk_inv (cr_link cr) (affine (path k) x)) (mrows Z)).
  destruct (A k ltac:(lia)) as (mu & z & Hp). destruct (A' k ltac:(lia)) as (mu' & z' & Hp').
  destruct (ap_lengths _ _ _ _ _ _ _ Lc Ly Hp) as (Lp & _). destruct (ap_lengths _ _ _ _ _ _ _ Lc Ly' Hp') as (Lp' & _).
  rewrite (predict_eq cr m (path k) Z Ep WZ), CZ, Lp, Nat.eqb_refl. split; [reflexivity|].
  rewrite (predict_eq cr m' (path' k) _ Ep') by (apply map_rows_wf; auto; rewrite CZ; apply Sf). cbn [map_rows mcols mrows] in *. rewrite Lp', Nat.eqb_refl, map_map. f_equal.
  apply map_ext_in. intros x Hx. rewrite Eq; [reflexivity|lia|lia|lia|]. rewrite <- CZ. exact (proj1 (Forall_forall _ _) WZ x Hx).
Qed.

(** Poisson regression on positive counts keeps the first estimate, in every frame. *)
Lemma poisson_first X y k (path : nat -> list R) : length y = nrows X -> (forall i, (i < length y)%nat -> 1 / 10 ^ 10 <= nth i y 0) -> (1 <= k)%nat ->
  (forall j, (1 <= j <= k)%nat -> exists mu z, after_pass Poisson X y j (path j) mu z) ->
  (forall j, (S j < k)%nat -> moved_on (path j) (path (S j))) -> path k = path 1%nat.
Proof.
  intros Ly Hy K A Mv. destruct (Nat.eq_dec k 1) as [->|N]; [reflexivity|].
  destruct (A 1%nat ltac:(lia)) as (mu1 & z1 & H1). destruct (A 2%nat ltac:(lia)) as (mu2 & z2 & H2).
  assert (E : path 2%nat = path 1%nat).
  { inversion H2 as [|k1 p1 mu z w p2 H1' Ew F2]; subst. inversion H1 as [w1 p' Ew1 F1|k0 ? ? ? ? ? H0]; subst; [|destruct (ap_pos _ _ _ _ _ _ H0)].
    inversion H1' as [w1' p'' Ew1' F1'|k0 ? ? ? ? ? H0]; subst; [|destruct (ap_pos _ _ _ _ _ _ H0)].
    rewrite Ew1 in Ew1'. injection Ew1' as <-. assert (Ep : p1 = path 1%nat) by (apply F1; apply F1'). rewrite Ep in *.
    destruct F2 as [S2 U2]. symmetry. apply U2. split; [exact (proj1 (proj1 F1))|]. intros q Lq. apply sumR_zero. intros i Hi.
    rewrite (poisson_init y Hy). cbn [cr_y_bar Poisson]. rewrite (ybar_zero Log y (nrows X)) by auto. rewrite vadd_zeros by (rewrite map_length; reflexivity).
    rewrite (nth_map (affine (path 1%nat)) (mrows X) i 0 []) by exact Hi. ring. }
  destruct (Nat.eq_dec k 2) as [->|N2]; [exact E|].
  exfalso. specialize (Mv 1%nat ltac:(lia)). unfold moved_on in Mv. rewrite E in Mv. rewrite sumR_zero in Mv by (intros; rewrite Rminus_diag_eq by reflexivity; apply Rabs_R0).
  assert (0 < / 10 ^ 10) by (apply Rinv_0_lt_compat, pow_lt; lra). lra.
Qed.
Theorem poisson_frame inverse inverse' f d' self self1 X y m m' : inverse_sound inverse -> inverse_sound inverse' -> mwf X -> same_affine (mcols X) d' f ->
  (forall i, (i < length y)%nat -> 1 / 10 ^ 10 <= nth i y 0) ->
  glm_train inverse Poisson self X y = (m, Ok tt) -> glm_train inverse' Poisson self1 (map_rows f d' X) y = (m', Ok tt) ->
  forall Z, mwf Z -> mcols Z = mcols X -> exists out, glm_predict Poisson m Z = Ok out /\ glm_predict Poisson m' (map_rows f d' Z) = Ok out.
Proof.
  intros Si Si' W Sf Hy T T' Z WZ CZ. destruct (train_path inverse Poisson self X y m lc_poisson Si W T) as (Ly & k & path & B & Ep & P0 & A & Mv & St).
  destruct (train_path inverse' Poisson self1 (map_rows f d' X) y m' lc_poisson Si' (map_rows_wf f d' X W (proj1 Sf)) T') as (Ly' & k' & path' & B' & Ep' & P0' & A' & Mv' & St').
  rewrite (poisson_first X y k path Ly Hy ltac:(lia) A Mv) in Ep. rewrite (poisson_first _ y k' path' Ly' Hy ltac:(lia) A' Mv') in Ep'.
  destruct (A 1%nat ltac:(lia)) as (mu & z & Hp). destruct (A' 1%nat ltac:(lia)) as (mu' & z' & Hp').
  pose proof (proj2 (proj2 (passes_frame Poisson f d' X y 1 _ _ _ _ _ _ W Sf Hp Hp'))) as Eq.
  destruct (ap_lengths _ _ _ _ _ _ _ lc_poisson Ly Hp) as (Lp & _). destruct (ap_lengths _ _ _ _ _ _ _ lc_poisson Ly' Hp') as (Lp' & _).
  exists (map (fun x => lk_inv (cr_link Poisson) (affine (path 1%nat) x)) (mrows Z)).
  rewrite (predict_eq Poisson m (path 1%nat) Z Ep WZ), CZ, Lp, Nat.eqb_refl. split; [reflexivity|].
  rewrite (predict_eq Poisson m' (path' 1%nat) _ Ep') by (apply map_rows_wf; auto; rewrite CZ; apply Sf). cbn [map_rows mcols mrows] in *. rewrite Lp', Nat.eqb_refl, map_map. f_equal.
  apply map_ext_in. intros x Hx. rewrite Eq; [reflexivity|]. rewrite <- CZ. exact (proj1 (Forall_forall _ _) WZ x Hx).
Qed.
