(** * Data that agree with the model's answers change nothing (C193) *)
From Coq Require Import List Arith Lia Bool Reals Lra.
From Verif Require Import Base BaseLemmas Num NumFn Linalg LinalgR Spec_Calc CalcR MatR Model_Toolkit Model_Regression Spec_Regression Proof_Regression Spec_Succeeds Proof_Succeeds Spec_LSStats Proof_LSStats
  Spec_Overlap Spec_Calib Proof_Calib Proof_Oracles Proof_SucceedsEx Proof_OverlapEx Proof_CalibEx Spec_Agree.
Import ListNotations.
Local Open Scope R_scope.

Lemma sumR_app m n f : sumR (m + n) f = sumR m f + sumR n (fun i => f (m + i)%nat).
Proof. induction n as [|n IH]; [rewrite Nat.add_0_r; cbn; ring|]. rewrite Nat.add_succ_r. cbn [sumR]. rewrite IH. ring. Qed.

Lemma log_predict_is self p X : log_parameters self = Some p -> mwf X -> length p = S (mcols X) ->
  exists out, log_predict self X = Ok out /\ length out = nrows X /\ forall i, (i < nrows X)%nat -> nth i out 0 = sigmoid (affine p (nth i (mrows X) [])).
Proof.
  intros E W L. unfold log_predict. rewrite E, rmat_vec_eq by (cbn; auto). cbn [rbind]. rewrite mat_vec_ones by auto. eexists. split; [reflexivity|].
  split; [now rewrite !map_length|]. intros i Hi. rewrite map_map. now rewrite (nth_map _ _ _ _ []) by exact Hi.
Qed.

Section Stacked.
  Variables X Z : matrix R.
  Hypothesis W : mwf X.
  Hypothesis WZ : mwf Z.
  Hypothesis C : mcols Z = mcols X.
  Lemma stacked_nrows : nrows (stacked X Z) = (nrows X + nrows Z)%nat.
  Proof. unfold stacked, nrows. cbn [mrows]. apply app_length. Qed.
  Lemma stacked_wf : mwf (stacked X Z).
  Proof. unfold mwf, stacked. cbn [mrows mcols]. apply Forall_app. split; [exact W|]. rewrite <- C. exact WZ. Qed.
  Lemma stacked_old i : (i < nrows X)%nat -> nth i (mrows (stacked X Z)) [] = nth i (mrows X) [].
  Proof. intros H. unfold stacked. cbn [mrows]. now rewrite app_nth1. Qed.
  Lemma stacked_new i : nth (nrows X + i) (mrows (stacked X Z)) [] = nth i (mrows Z) [].
  Proof. unfold stacked. cbn [mrows]. rewrite app_nth2 by (unfold nrows; lia). f_equal. unfold nrows. lia. Qed.
  Lemma stacked_spans : spans X -> spans (stacked X Z).
  Proof. intros S q Lq H. apply S; [exact Lq|]. intros r Hr. apply H. unfold stacked. cbn [mrows]. apply in_or_app. now left. Qed.

  (** ** Linear regression *)
  Lemma lr_agree_fit (y t p : list R) : length y = nrows X -> length t = nrows Z -> (forall i, (i < nrows Z)%nat -> nth i t 0 = affine p (nth i (mrows Z) [])) ->
    fit X (cf y) (cf p) <-> fit (stacked X Z) (cf (y ++ t)) (cf p).
  Proof.
    intros Ly Lt Ht. unfold fit. rewrite stacked_nrows.
    assert (Q : forall g, sumR (nrows X + nrows Z) (fun i => (cf (y ++ t) i - aff (stacked X Z) (cf p) i) * aff (stacked X Z) g i) = sumR (nrows X) (fun i => (cf y i - aff X (cf p) i) * aff X g i)).
    { intros g. rewrite sumR_app, (BaseLemmas.sumR_zero (nrows Z)).
      - rewrite Rplus_0_r. apply sumR_ext. intros i Hi. unfold aff, cf. rewrite stacked_old by auto. unfold stacked. cbn [mcols]. now rewrite app_nth1 by lia.
      - intros i Hi. rewrite <- affine_aff by (try apply stacked_wf; rewrite stacked_nrows; lia). rewrite stacked_new. unfold cf at 1.
        rewrite app_nth2 by lia. rewrite Ly. replace (nrows X + i - nrows X)%nat with i by lia. rewrite Ht by auto. ring. }
    split; intros H g; [rewrite Q|rewrite <- Q]; apply H.
  Qed.
  Theorem lr_agree solve y t p : solver_exact solve -> spans X -> length y = nrows X -> lr_predict {| lr_parameters := Some p |} Z = Ok t ->
    (learns solve X y p <-> learns solve (stacked X Z) (y ++ t) p).
  Proof.
    intros Se Sp Ly Pt. rewrite (lr_predict_affine {| lr_parameters := Some p |} p Z eq_refl WZ) in Pt. destruct (Nat.eqb_spec (length p) (S (mcols Z))) as [Lp|]; [|discriminate]. injection Pt as <-.
    rewrite C in Lp. set (t := map (affine p) (mrows Z)). assert (Lt : length t = nrows Z) by (unfold t; apply map_length).
    assert (Ht : forall i, (i < nrows Z)%nat -> nth i t 0 = affine p (nth i (mrows Z) [])) by (intros i Hi; unfold t; now rewrite (nth_map _ _ _ _ []) by exact Hi).
    pose proof (lr_agree_fit y t p Ly Lt Ht) as A. pose proof stacked_wf as W'. pose proof (stacked_spans Sp) as Sp'.
    assert (Ly' : length (y ++ t) = nrows (stacked X Z)) by (rewrite app_length, stacked_nrows; lia).
    split; intros H.
    - destruct (learns_fit X W solve _ _ (proj1 Se) H) as (_ & _ & F). apply A in F.
      destruct (proj2 (learns_iff _ W' solve Se (y ++ t)) (conj Ly' Sp')) as (p' & Hp'). destruct (learns_fit _ W' solve _ _ (proj1 Se) Hp') as (_ & Lp' & F').
      replace p with p'; [exact Hp'|]. apply (list_ext_nth _ _ (S (mcols X)) Lp' Lp). exact (fit_unique _ _ _ _ (spans_sep _ W' Sp') F' F).
    - destruct (learns_fit _ W' solve _ _ (proj1 Se) H) as (_ & _ & F). apply A in F.
      destruct (proj2 (learns_iff _ W solve Se y) (conj Ly Sp)) as (p' & Hp'). destruct (learns_fit _ W solve _ _ (proj1 Se) Hp') as (_ & Lp' & F').
      replace p with p'; [exact Hp'|]. apply (list_ext_nth _ _ (S (mcols X)) Lp' Lp). exact (fit_unique _ _ _ _ (spans_sep _ W Sp) F' F).
  Qed.

  (** ** Logistic regression *)
  Theorem log_agree y t p : (0 < nrows X)%nat -> length y = nrows X -> length p = S (mcols X) -> log_predict {| log_parameters := Some p |} Z = Ok t ->
    (best_fit X y p <-> best_fit (stacked X Z) (y ++ t) p).
  Proof.
    intros Hn Ly Lp Pt. set (self := {| log_parameters := Some p |} : LogisticRegressor R). pose proof stacked_wf as W'.
    destruct (log_predict_is self p X eq_refl W Lp) as (o & Eo & Lo & Ho).
    destruct (log_predict_is self p Z eq_refl WZ ltac:(now rewrite C)) as (o2 & Eo2 & Lt & Ht). fold self in Pt. rewrite Pt in Eo2. injection Eo2 as <-.
    destruct (log_predict_is self p (stacked X Z) eq_refl W' Lp) as (o' & Eo' & Lo' & Ho').
    assert (Ly' : length (y ++ t) = nrows (stacked X Z)) by (rewrite app_length, stacked_nrows; lia).
    assert (Hn' : (0 < nrows (stacked X Z))%nat) by (rewrite stacked_nrows; lia).
    destruct (best_balances X y W Hn Ly self p Lp eq_refl) as (b & Eb & _ & B). rewrite Eo in Eb. injection Eb as <-.
    destruct (best_balances _ _ W' Hn' Ly' self p Lp eq_refl) as (b & Eb & _ & B'). rewrite Eo' in Eb. injection Eb as <-.
    rewrite B, B'. unfold balances. rewrite stacked_nrows in *.
    assert (Q : forall u v k, length v = nrows X -> (forall i, (i < nrows X)%nat -> nth i u 0 = nth i v 0) -> (forall i, (i < nrows Z)%nat -> nth (nrows X + i) u 0 = nth i t 0) ->
      sumR (nrows X + nrows Z) (fun i => nth i u 0 * feature (stacked X Z) i k) = sumR (nrows X) (fun i => nth i v 0 * feature X i k) + sumR (nrows Z) (fun i => nth i t 0 * feature Z i k)).
    { intros u v k Lv H1 H2. rewrite sumR_app. f_equal; apply sumR_ext; intros i Hi; unfold feature.
      - now rewrite stacked_old, H1 by auto.
      - now rewrite stacked_new, H2 by auto. }
    assert (Q1 : forall k, sumR (nrows X + nrows Z) (fun i => nth i o' 0 * feature (stacked X Z) i k) = sumR (nrows X) (fun i => nth i o 0 * feature X i k) + sumR (nrows Z) (fun i => nth i t 0 * feature Z i k)).
    { intros k. apply Q; auto.
      - intros i Hi. rewrite Ho', Ho by lia. now rewrite stacked_old.
      - intros i Hi. rewrite Ho', Ht by lia. now rewrite stacked_new. }
    assert (Q2 : forall k, sumR (nrows X + nrows Z) (fun i => nth i (y ++ t) 0 * feature (stacked X Z) i k) = sumR (nrows X) (fun i => nth i y 0 * feature X i k) + sumR (nrows Z) (fun i => nth i t 0 * feature Z i k)).
    { intros k. apply Q; auto.
      - intros i Hi. now rewrite app_nth1 by lia.
      - intros i Hi. rewrite app_nth2 by lia. f_equal. lia. }
    split; intros H k Hk; specialize (H k Hk); rewrite Q1, Q2 in *; lra.
  Qed.
End Stacked.

(** ** Concrete cases *)
Lemma agree_lr_case : exists p t, learns solve_any Tri [1; 5; 2] p /\ lr_predict {| lr_parameters := Some p |} Line = Ok t /\ mwf Tri /\ mwf Line /\ spans Tri.
Proof.
  destruct (proj2 (learns_iff Tri Tri_wf solve_any solve_any_exact [1; 5; 2]) (conj eq_refl Tri_spans)) as (p & Hp).
  destruct (learns_fit Tri Tri_wf solve_any _ _ (proj1 solve_any_exact) Hp) as (_ & Lp & _).
  exists p. eexists. split; [exact Hp|]. split; [rewrite (lr_predict_affine {| lr_parameters := Some p |} p Line eq_refl Line_wf), Lp; reflexivity|]. exact (conj Tri_wf (conj Line_wf Tri_spans)).
Qed.
Lemma agree_log_case : exists p t, best_fit zigzag [0; 1; 0; 1] p /\ log_predict {| log_parameters := Some p |} zigzag = Ok t /\ mwf zigzag /\ (0 < nrows zigzag)%nat.
Proof.
  destruct case_best as (W & Hn & _ & p & B). exists p. destruct (log_predict_is {| log_parameters := Some p |} p zigzag eq_refl W (proj1 B)) as (t & Et & _). eauto.
Qed.
