(** Lemmas for [Props_Single]. *)
From Coq Require Import List Arith Reals Lra Lia Bool.
From Verif Require Import Base BaseLemmas Num NumFn Linalg LinalgR Spec_Calc CalcR Model_Rand Proof_Rand Model_KMeans Proof_KMeans MatR Model_Optim Model_GMM Spec_GMM
  Proof_GMM Proof_GMM2 Proof_GMM3 Proof_GMM4 Proof_GMMFrame2 Spec_Single.
Import ListNotations.

Section KMeans1.
  Context {F : Type} {N : Num F}.
  Lemma closest_one (r : list F) w x : closest (Mat [r] w) w x = Ok (0%nat, sqdist r x).
  Proof. unfold closest. cbn [mcols mrows map]. now rewrite Nat.eqb_refl. Qed.
  Lemma rmap_all {A B} (f : A -> res B) (g : A -> B) l : (forall a, f a = Ok (g a)) -> rmap f l = Ok (map g l).
  Proof. intro H. induction l as [|a l IH]; [reflexivity|]. cbn [rmap map]. now rewrite H, IH. Qed.
  Lemma find_one (r : list F) (X : matrix F) : find_closest_centroids (Mat [r] (mcols X)) X = Ok (repeat 0%nat (nrows X), map (sqdist r) (mrows X)).
  Proof.
    unfold find_closest_centroids. rewrite (rmap_all _ (fun x => (0%nat, sqdist r x))) by (intro x; apply closest_one).
    cbn [rbind]. rewrite !map_map. cbn [fst snd]. f_equal. f_equal. unfold nrows. induction (mrows X) as [|x l IH]; [reflexivity|]. cbn. now rewrite IH.
  Qed.
  Lemma class_zero n : class_rows (repeat 0%nat n) 0 = seq 0 n.
  Proof.
    unfold class_rows. rewrite repeat_length. assert (H : forall l, Forall (fun i => (i < n)%nat) l -> filter (fun i => nth i (repeat 0 n) 1 =? 0)%nat l = l).
    { induction l as [|i l IH]; intro Hl; [reflexivity|]. inversion Hl; subst. cbn [filter]. rewrite (nth_indep _ _ 0%nat) by (now rewrite repeat_length).
      rewrite nth_repeat. cbn. now rewrite IH. }
    apply H. apply Forall_forall. intros i Hi. apply in_seq in Hi. lia.
  Qed.
  Lemma map_nth_all {A} (l : list A) d : map (fun i => nth i l d) (seq 0 (length l)) = l.
  Proof. induction l as [|a l IH]; [reflexivity|]. cbn [length seq map nth]. f_equal. rewrite <- seq_shift, map_map. exact IH. Qed.
  Lemma update_one (X : matrix F) : update_centroids 1 X (repeat 0%nat (nrows X)) = Ok (Mat [col_mean X] (mcols X)).
  Proof.
    unfold update_centroids. cbn [seq rmap]. rewrite class_zero. unfold select_rows.
    rewrite (rows_opt_spec (mrows X) (seq 0 (nrows X)) []).
    2: { apply Forall_forall. intros i Hi. apply in_seq in Hi. unfold nrows in Hi. lia. }
    unfold nrows. rewrite map_nth_all. cbn [rbind]. destruct X. reflexivity.
  Qed.
  Lemma lloyd_one tol (X : matrix F) n : forall cost r, lloyd tol 1 X (S n) cost (Mat [r] (mcols X)) = Ok (Mat [col_mean X] (mcols X)).
  Proof.
    induction n as [|n IH]; intros cost r.
    - cbn [lloyd]. rewrite find_one. cbn [rbind]. rewrite update_one. cbn [rbind]. now destruct (nltb _ _).
    - remember (S n) as k. cbn [lloyd]. rewrite find_one. cbn [rbind]. rewrite update_one. cbn [rbind]. destruct (nltb _ _); [reflexivity|]. apply IH.
  Qed.
  Theorem one_cluster tol (c X : matrix F) (m : @KMeans F) : km_k m = 1%nat -> km_iters m <> O -> nrows X <> O -> nrows c = 1%nat -> mcols c = mcols X ->
    km_train tol (Ok c) m X = (km_set m (Mat [col_mean X] (mcols X)), Ok tt).
  Proof.
    intros Hk Hi HX Hc Wc. destruct c as [[|r [|]] w]; try discriminate. cbn [mcols] in Wc. subst w. unfold km_train, init_centroids. rewrite Hk.
    destruct (Nat.ltb_spec (nrows X) 1); [lia|]. cbn [rbind]. rewrite Hc. cbn [Nat.eqb negb mcols]. rewrite Nat.eqb_refl. cbn [negb].
    destruct (km_iters m) as [|n]; [easy|]. now rewrite lloyd_one.
  Qed.
  Theorem one_cluster_predict (m : @KMeans F) r w (Z : matrix F) : km_centroids m = Some (Mat [r] w) -> mcols Z = w -> km_predict m Z = Ok (repeat 0%nat (nrows Z)).
  Proof. intros E <-. unfold km_predict. rewrite E, find_one. reflexivity. Qed.
End KMeans1.

Local Open Scope R_scope.
Lemma one_cluster_mean (X : matrix R) j : (j < mcols X)%nat -> nth j (col_mean X) 0 = data_mean X j.
Proof.
  intro Hj. unfold col_mean. rewrite nth_map_seq by exact Hj. cbn [ndiv nofnat NumR]. rewrite vsum_R, rsum_nth, col_length. unfold data_mean. f_equal.
  apply sumR_ext. intros i Hi. apply col_nth. exact Hi.
Qed.

Section GMM1.
  Variable lup : matrix R -> res (R * matrix R).
  Hypothesis lup_ok : lup_sound lup.
  Lemma fitted_one (X : matrix R) W self : (0 < nrows X)%nat -> gmm_comp_count self = 1%nat -> length (gmm_mix_weights self) = 1%nat ->
    (forall i, (i < nrows X)%nat -> W i 0%nat = 1) -> fitted X W self -> single_gaussian X self.
  Proof.
    intros HR Hk Lw HW (Fw & M & Cs & EM & EC & HF). assert (HN : INR (nrows X) <> 0) by (apply not_0_INR; lia).
    assert (Es : wsum (nrows X) W 0 = INR (nrows X)).
    { unfold wsum. rewrite (sumR_ext _ _ (fun _ => 1)) by (intros; now apply HW). rewrite sumR_const. ring. }
    assert (Em : forall a, wmean (nrows X) W (entry X) 0 a = data_mean X a).
    { intro a. unfold wmean, data_mean. rewrite Es. f_equal. apply sumR_ext. intros i Hi. rewrite HW by exact Hi. ring. }
    assert (Ec : forall a b, wcov (nrows X) W (entry X) 0 a b = ml_cov X a b).
    { intros a b. unfold wcov, ml_cov. rewrite Es. f_equal. apply sumR_ext. intros i Hi. rewrite HW, !Em by exact Hi. ring. }
    split.
    - specialize (Fw 0%nat). rewrite Hk, Es in Fw. destruct (gmm_mix_weights self) as [|w [|]]; try discriminate. cbn [nth] in Fw. rewrite Fw by lia. f_equal. now field.
    - exists M, Cs. split; [exact EM|]. split; [exact EC|]. intros a Ha. destruct (HF 0%nat a) as [H1 H2]; [lia|exact Ha|]. split; [now rewrite H1, Em|].
      intros b Hb. rewrite H2 by exact Hb. unfold fitted_cov, single_cov. now destruct (gmm_cov_option self); rewrite ?Ec, ?Es.
  Qed.
  Lemma bayes_one (w g : R) : w * g <> 0 -> w * g / (0 + w * g) = 1.
  Proof. intro H. rewrite Rplus_0_l. unfold Rdiv. now apply Rinv_r. Qed.
  Lemma loop_one X : mwf X -> (0 < nrows X)%nat -> forall n self self', gmm_comp_count self = 1%nat -> eps_ok self -> mixture (mcols X) self ->
    em_loop lup n self X = (self', Ok tt) ->
    (self' = self /\ (n = O \/ exists g, component_densities lup (mcols X) self g /\ Rabs (log_likelihood X self g - gmm_log_lik self) < 1 / 10 ^ 15)) \/ single_gaussian X self'.
  Proof.
    intros WX HR. induction n as [|n IH]; intros self self' Hk He HM E.
    - cbn in E. injection E as <-. left. auto.
    - destruct (em_round_mixture lup X lup_ok X n self self' (Ok tt) WX eq_refl HR ltac:(lia) He HM E eq_refl) as (g & W & Hg & HW & [[Hl ->]|(self1 & _ & HC & _ & HF & HM1 & E1)]); [left; split; [reflexivity|right; now exists g]|].
      right. destruct HC as (C1 & C2 & C3).
      assert (H1 : forall i, (i < nrows X)%nat -> W i 0%nat = 1).
      { intros i Hi. rewrite HW by lia. unfold bayes, mixture_density. rewrite Hk. cbn [sumR]. apply bayes_one.
        destruct HM as ((_ & Hw & _) & (M & EM & _) & (Cs & EC & LC & FC)). specialize (Hw 0%nat ltac:(lia)).
        destruct Hg as (M' & Cs' & EM' & EC' & Hg). rewrite EC in EC'. injection EC' as <-. destruct (Hg 0%nat ltac:(lia)) as (det & Ci & El & Eg).
        rewrite Forall_forall in FC. assert (Hin : In (nth 0 Cs (Mat [] 0)) Cs) by (apply nth_In; lia).
        destruct (lup_ok _ _ _ _ (FC _ Hin) El) as (Hd & _). rewrite Eg. unfold gauss.
        apply Rgt_not_eq. apply Rmult_lt_0_compat; [exact Hw|]. apply Rdiv_lt_0_compat; [apply exp_pos|now apply sqrt_lt_R0]. }
      assert (S1 : single_gaussian X self1).
      { apply (fitted_one X W); auto; [congruence|]. destruct HM1 as ((L & _) & _). congruence. }
      destruct (IH self1 self' ltac:(congruence) ltac:(unfold eps_ok; now rewrite C2) HM1 E1) as [[-> _]|H]; assumption.
  Qed.
  Theorem one_component (self : GMM R) X self' : well_started self -> gmm_comp_count self = 1%nat -> mwf X ->
    outcome (gmm_train lup self X) (Some (self', Ok tt)) ->
    (starting X self self' /\ (gmm_max_iters self = O \/
       exists g, component_densities lup (mcols X) self' g /\ Rabs (log_likelihood X self' g - gmm_log_lik self) < 1 / 10 ^ 15)) \/
    single_gaussian X self'.
  Proof.
    intros HS Hk WX H. destruct (train_shape lup self X self' (Ok tt) WX H) as [(_ & _ & ?)|(HX & Hle & rows & ND & Hr & Lr & E)]; [discriminate|].
    pose proof (start_mixture self X rows HS WX HX Lr Hr) as HM. pose proof (starting_set self X rows HX ND Hr Lr) as ST.
    destruct ((fun h a b => loop_one X WX h _ _ _ a b HM E) ltac:(lia) Hk (proj2 (proj2 HS))) as [[-> Hs]|Hs]; [left; split; [exact ST|exact Hs]|now right].
  Qed.
  Theorem one_component_predict d (self : GMM R) X P : gmm_comp_count self = 1%nat -> mixture d self -> mwf X -> mcols X = d -> gmm_predict lup self X = Ok P ->
    P = Mat (repeat [1] (nrows X)) 1.
  Proof.
    intros Hk HM WX EX H. destruct (predict_distribution lup lup_ok d self X P ltac:(lia) HM WX EX H) as (WP & RP & CP & HP). rewrite Hk in *.
    apply matrix_eq; auto.
    - unfold mwf. cbn [mrows mcols]. apply Forall_forall. intros r Hr. apply repeat_spec in Hr. now subst r.
    - unfold nrows at 2. cbn. now rewrite repeat_length.
    - intros i j Hi Hj. assert (j = 0%nat) by lia. subst j. destruct (HP i) as [_ Hs]; [lia|]. cbn [sumR] in Hs. rewrite Rplus_0_l in Hs. rewrite Hs.
      unfold entry. cbn [mrows]. rewrite (nth_indep _ _ [1]) by (rewrite repeat_length; lia). now rewrite nth_repeat.
  Qed.
End GMM1.
