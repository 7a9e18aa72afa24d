(** The two steps of expectation maximisation. *)
From Coq Require Import List Arith Lia Bool Reals Lra Permutation.
From Verif Require Import Base BaseLemmas Num NumFn Linalg LinalgR Spec_Calc CalcR Model_Rand Proof_Rand Proof_KMeans MatR
  Model_Optim Model_GP Model_NNet Proof_GP Proof_Toolkit Proof_PCA Model_GMM Spec_GMM Proof_GMM.
Import ListNotations.
Local Open Scope R_scope.

Lemma entry00 (M : matrix R) : mwf M -> nrows M = 1%nat -> mcols M = 1%nat ->
  (let? r := ridx (mrows M) 0 in ridx r 0) = Ok (entry M 0 0).
Proof.
  destruct M as [rows c]. unfold nrows, mwf. cbn [mrows mcols]. intros W R E. subst c.
  destruct rows as [|r [|]]; try discriminate. inversion W as [|? ? Hr _]; subst. destruct r as [|x [|]]; try discriminate. reflexivity.
Qed.
Lemma ridx_ok {A} (l : list A) i d : (i < length l)%nat -> ridx l i = Ok (nth i l d).
Proof. intros H. unfold ridx. rewrite (nth_error_nth' l d H). reflexivity. Qed.
Lemma row_entry (d : nat) (v : list R) a : entry (Mat [v] d) 0 a = nth a v 0.
Proof. reflexivity. Qed.

Definition vec (d : nat) (f : nat -> R) : list R := map f (seq 0 d).
Lemma pdf_value d (M : matrix R) dis (x : list R) j : mwf M -> mcols M = d -> (j < nrows M)%nat -> (j < length dis)%nat ->
  length x = d -> square d (snd (nth j dis (0, Mat [] 0))) ->
  gmm_pdf M dis x j = Ok (gauss d (fst (nth j dis (0, Mat [] 0))) (snd (nth j dis (0, Mat [] 0))) (fun a => nth a x 0) (entry M j)).
Proof.
  intros WM EM HM HD Lx (WC & RC & EC). unfold gmm_pdf.
  rewrite (ridx_ok (mrows M) j []) by exact HM. cbn [rbind].
  assert (Lm : length (nth j (mrows M) []) = d) by (rewrite (mwf_row M j WM HM); exact EM).
  unfold rvsub. rewrite Lx, Lm, Nat.eqb_refl. cbn [rassert rbind].
  rewrite (ridx_ok dis j (0, Mat [] 0)) by exact HD. cbn [rbind].
  destruct (nth j dis (0, Mat [] 0)) as [det Ci] eqn:ED. cbn [fst snd] in *.
  set (diff := vsub x (nth j (mrows M) [])).
  assert (Ld : length diff = d) by (unfold diff; rewrite vsub_length, Lx, Lm; apply Nat.min_id).
  rewrite Ld. set (D := Mat [diff] d).
  assert (WD : mwf D) by (constructor; [exact Ld|constructor]).
  rewrite rmat_mul_ok by (rewrite RC; reflexivity). cbn [rbind].
  rewrite rmat_mul_ok by (rewrite transpose_nrows; cbn [mat_mul mcols D]; exact EC). cbn [rbind].
  set (P := mat_mul (mat_mul D Ci) (transpose D)).
  assert (EP : (let? r := ridx (mrows P) 0 in ridx r 0) = Ok (entry P 0 0)).
  { apply entry00; [apply mat_mul_wf|unfold P; rewrite !mat_mul_nrows; reflexivity|reflexivity]. }
  assert (EQ : entry P 0 0 = quad d Ci (fun a => nth a x 0) (entry M j)).
  { unfold P. rewrite mat_mul_entry; [|apply mat_mul_wf|rewrite transpose_nrows; cbn [mat_mul mcols D]; auto|rewrite mat_mul_nrows; cbn; lia|cbn; lia].
    cbn [mat_mul mcols]. rewrite EC. unfold quad. apply sumR_ext. intros b Hb.
    assert (ED' : forall a, (a < d)%nat -> entry D 0 a = nth a x 0 - entry M j a).
    { intros a Ha. unfold D. rewrite row_entry. unfold diff, vsub. rewrite (map2_nth _ _ _ _ 0 0) by lia. reflexivity. }
    rewrite transpose_entry by (cbn; lia). rewrite ED' by auto. f_equal.
    rewrite mat_mul_entry by (auto; cbn; lia). cbn [D mcols]. apply sumR_ext. intros a Ha. rewrite ED' by auto. reflexivity. }
  destruct (ridx (mrows P) 0) as [r0| |]; cbn [rbind] in EP |- *; try discriminate. rewrite EP. cbn [rbind]. rewrite EQ.
  unfold gauss. cbn [nexp NumFnR ndiv nmul nopp nonev nofnat nsqrt NumR]. do 3 f_equal. cbn [INR]. field.
Qed.
Lemma gauss_pos d det Ci x mu : 0 < det -> 0 < gauss d det Ci x mu.
Proof. intros H. unfold gauss. apply Rdiv_lt_0_compat; [apply exp_pos|apply sqrt_lt_R0; exact H]. Qed.

(** The posterior weight of component [j] at [x]. *)
Definition mixed (d k : nat) (w : list R) (M : matrix R) (dis : list (R * matrix R)) (x : nat -> R) : R :=
  sumR k (fun j => nth j w 0 * gauss d (fst (nth j dis (0, Mat [] 0))) (snd (nth j dis (0, Mat [] 0))) x (entry M j)).
Definition posterior (d k : nat) (w : list R) (M : matrix R) (dis : list (R * matrix R)) (x : nat -> R) (j : nat) : R :=
  nth j w 0 * gauss d (fst (nth j dis (0, Mat [] 0))) (snd (nth j dis (0, Mat [] 0))) x (entry M j) / mixed d k w M dis x.

Lemma row_value (self : GMM R) d M dis x : let k := gmm_comp_count self in
  length (gmm_mix_weights self) = k -> mwf M -> mcols M = d -> nrows M = k -> length dis = k -> length x = d ->
  (forall j, (j < k)%nat -> square d (snd (nth j dis (0, Mat [] 0)))) ->
  gmm_row self M dis x = Ok (map (posterior d k (gmm_mix_weights self) M dis (fun a => nth a x 0)) (seq 0 k),
                             mixed d k (gmm_mix_weights self) M dis (fun a => nth a x 0)).
Proof.
  intros k Lw WM EM RM LD Lx HC. unfold gmm_row. fold k.
  set (g := fun j => gauss d (fst (nth j dis (0, Mat [] 0))) (snd (nth j dis (0, Mat [] 0))) (fun a => nth a x 0) (entry M j)).
  rewrite (rmap_ok _ g).
  2:{ intros j Hj. apply in_seq in Hj. apply pdf_value; auto; try lia. apply HC. lia. }
  cbn [rbind].
  assert (ES : dot (map g (seq 0 k)) (gmm_mix_weights self) = mixed d k (gmm_mix_weights self) M dis (fun a => nth a x 0)).
  { rewrite (dot_sumR k) by (rewrite ?map_length, ?seq_length; auto). apply sumR_ext. intros j Hj. rewrite nth_map_seq by auto. unfold g. apply Rmult_comm. }
  rewrite ES. rewrite map_length, seq_length.
  rewrite (rmap_ok _ (posterior d k (gmm_mix_weights self) M dis (fun a => nth a x 0))).
  - reflexivity.
  - intros j Hj. apply in_seq in Hj. rewrite (ridx_ok _ j 0) by lia. cbn [rbind].
    rewrite (ridx_ok _ j 0) by (rewrite map_length, seq_length; lia). cbn [rbind]. rewrite nth_map_seq by lia. reflexivity.
Qed.

Section EStep.
  Variable lup : matrix R -> res (R * matrix R).
  Hypothesis lup_ok : lup_sound lup.
  Variables (d : nat) (self : GMM R).
  Hypothesis HM : mixture d self.

  Lemma rmap_length {A B} (f : A -> res B) l r : rmap f l = Ok r -> length r = length l.
  Proof. intros H. apply rmap_inv in H. induction H; cbn; auto. Qed.
  Lemma rmap_nth {A B} (f : A -> res B) l r i da db : rmap f l = Ok r -> (i < length l)%nat -> f (nth i l da) = Ok (nth i r db).
  Proof.
    intros H. apply rmap_inv in H. revert i. induction H as [|a b l r Hf H IH]; intros [|i] Hi; cbn in *; try lia; auto. apply IH. lia.
  Qed.
  Definition decomposed (Cs : list (matrix R)) (dis : list (R * matrix R)) : Prop := rmap lup Cs = Ok dis.
  Lemma dis_ok Cs dis : Forall (covariance d) Cs -> decomposed Cs dis ->
    forall j, (j < length Cs)%nat -> 0 < fst (nth j dis (0, Mat [] 0)) /\ square d (snd (nth j dis (0, Mat [] 0))).
  Proof.
    intros HC HD j Hj. pose proof (rmap_nth lup Cs dis j (Mat [] 0) (0, Mat [] 0) HD Hj) as E.
    destruct (nth j dis (0, Mat [] 0)) as [det Ci]. cbn [fst snd].
    destruct (lup_ok (nth j Cs (Mat [] 0)) d det Ci) as (Hp & W & R & C & _).
    - rewrite Forall_forall in HC. apply HC. apply nth_In. exact Hj.
    - exact E.
    - split; [exact Hp|]. split; auto.
  Qed.

  Theorem membership_value X W ll : mwf X -> mcols X = d -> membership_weights lup self X = Ok (W, ll) ->
    exists M Cs dis, gmm_means self = Some M /\ gmm_covars self = Some Cs /\ rmap lup Cs = Ok dis /\
      mwf W /\ nrows W = nrows X /\ mcols W = gmm_comp_count self /\
      (forall i j, (i < nrows X)%nat -> (j < gmm_comp_count self)%nat ->
         entry W i j = posterior d (gmm_comp_count self) (gmm_mix_weights self) M dis (entry X i) j) /\
      ll = sumR (nrows X) (fun i => ln (mixed d (gmm_comp_count self) (gmm_mix_weights self) M dis (entry X i))).
  Proof.
    intros WX EX H. destruct HM as ((Lw & Pw & Sw) & (M & EM & WM & RM & CM) & (Cs & EC & LC & HC)).
    unfold membership_weights in H. rewrite EC, EM in H.
    destruct (rmap lup Cs) as [dis| |] eqn:ED; cbn [rbind] in H; try discriminate.
    assert (LD : length dis = gmm_comp_count self) by (rewrite (rmap_length _ _ _ ED); exact LC).
    rewrite (rmap_ok _ (fun x => (map (posterior d (gmm_comp_count self) (gmm_mix_weights self) M dis (fun a => nth a x 0)) (seq 0 (gmm_comp_count self)),
                             mixed d (gmm_comp_count self) (gmm_mix_weights self) M dis (fun a => nth a x 0)))) in H.
    2:{ intros x Hx. apply (row_value self d M dis x); auto.
        - unfold mwf in WX. rewrite Forall_forall in WX. rewrite (WX x Hx). exact EX.
        - intros j Hj. apply (dis_ok Cs dis HC ED). lia. }
    cbn [rbind] in H. apply Ok_inj in H. pose proof (f_equal fst H) as HW. pose proof (f_equal snd H) as HL. cbn [fst snd] in HW, HL. clear H.
    exists M, Cs, dis. split; [exact EM|]. split; [exact EC|]. split; [exact ED|]. subst W. split; [|split; [|split; [reflexivity|split]]].
    - apply Forall_forall. intros r Hr. cbn [mrows mcols] in *. rewrite map_map in Hr. apply in_map_iff in Hr. destruct Hr as (x & <- & _). cbn [fst].
      rewrite map_length, seq_length. reflexivity.
    - unfold nrows. cbn [mrows]. rewrite !map_length. reflexivity.
    - intros i j Hi Hj. unfold entry at 1. cbn [mrows]. rewrite map_map. rewrite (nth_map _ _ _ _ []) by exact Hi. cbn [fst]. rewrite nth_map_seq by exact Hj. reflexivity.
    - subst ll. rewrite map_map. rewrite vsum_R, rsum_nth, map_length. apply sumR_ext. intros i Hi. rewrite (nth_map _ _ _ _ []) by exact Hi. reflexivity.
  Qed.
  Lemma mixed_pos M Cs dis x : gmm_comp_count self <> O -> gmm_covars self = Some Cs -> rmap lup Cs = Ok dis ->
    0 < mixed d (gmm_comp_count self) (gmm_mix_weights self) M dis x.
  Proof.
    intros Hk EC ED. destruct HM as ((Lw & Pw & Sw) & _ & (Cs' & EC' & LC & HC)). rewrite EC in EC'. injection EC' as <-.
    assert (T : forall j, (j < gmm_comp_count self)%nat -> 0 < nth j (gmm_mix_weights self) 0 *
        gauss d (fst (nth j dis (0, Mat [] 0))) (snd (nth j dis (0, Mat [] 0))) x (entry M j)).
    { intros j Hj. apply Rmult_lt_0_compat; [auto|]. apply gauss_pos. apply (dis_ok Cs dis HC ED). lia. }
    unfold mixed. apply Rlt_le_trans with (nth 0 (gmm_mix_weights self) 0 * gauss d (fst (nth 0 dis (0, Mat [] 0))) (snd (nth 0 dis (0, Mat [] 0))) x (entry M 0)).
    - apply T. lia.
    - apply (sumR_ge_term (gmm_comp_count self) (fun j => nth j (gmm_mix_weights self) 0 *
        gauss d (fst (nth j dis (0, Mat [] 0))) (snd (nth j dis (0, Mat [] 0))) x (entry M j))); [intros; left; auto|lia].
  Qed.
  (** Rows of weights are positive and sum to one. *)
  Theorem membership_distribution X W ll : gmm_comp_count self <> O -> mwf X -> mcols X = d -> membership_weights lup self X = Ok (W, ll) ->
    mwf W /\ nrows W = nrows X /\ mcols W = gmm_comp_count self /\
    forall i, (i < nrows X)%nat -> (forall j, (j < gmm_comp_count self)%nat -> 0 < entry W i j) /\ sumR (gmm_comp_count self) (entry W i) = 1.
  Proof.
    intros Hk WX EX H. destruct (membership_value X W ll WX EX H) as (M & Cs & dis & EM & EC & ED & WW & RW & CW & HE & _).
    split; [exact WW|]. split; [exact RW|]. split; [exact CW|]. intros i Hi.
    pose proof (mixed_pos M Cs dis (entry X i) Hk EC ED) as Hp.
    split.
    - intros j Hj. rewrite HE by auto. unfold posterior. apply Rdiv_lt_0_compat; [|exact Hp].
      destruct HM as ((Lw & Pw & Sw) & _ & (Cs' & EC' & LC & HC)). rewrite EC in EC'. injection EC' as <-.
      apply Rmult_lt_0_compat; [auto|]. apply gauss_pos. apply (dis_ok Cs dis HC ED). lia.
    - rewrite (sumR_ext _ _ (posterior d (gmm_comp_count self) (gmm_mix_weights self) M dis (entry X i))) by (intros; apply HE; auto).
      unfold posterior, Rdiv. rewrite sumR_scal_r. fold (mixed d (gmm_comp_count self) (gmm_mix_weights self) M dis (entry X i)).
      apply Rinv_r. lra.
  Qed.
End EStep.
