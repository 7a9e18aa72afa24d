(** Gaussian naive Bayes refuses a class with a single row. *)
From Coq Require Import List Arith Lia Bool Reals Lra.
From Verif Require Import Base BaseLemmas Num NumFn Linalg Model_KMeans Proof_KMeans Model_NaiveBayes Spec_NaiveBayes Proof_NaiveBayes Proof_NaiveBayes2.
Import ListNotations.

Section Lonely.
  Context {F : Type} {N : Num F} {Fn : NumFn F}.
  Lemma set_row_ok (m : matrix F) i r : i < nrows m -> exists m', set_row m i r = Some m' /\ nrows m' = nrows m.
  Proof.
    intros H. unfold set_row. destruct (upd (mrows m) i r) as [l|] eqn:E; [|apply upd_None in E; unfold nrows in H; lia].
    eexists. split; [reflexivity|]. exact (upd_length _ _ _ _ E).
  Qed.
  Lemma lonely_update inputs cs c todo : forall p, Forall (fun i => i < nrows inputs) (seq 0 (length cs)) ->
    Forall (fun c => c < nrows (g_theta p) /\ c < nrows (g_sigma p)) todo -> In c todo -> length (class_rows cs c) = 1 ->
    snd (update_classes Gaussian inputs cs todo p) = Err InvalidData.
  Proof.
    induction todo as [|d todo IH]; intros p HI HT Hc L1; [easy|]. inversion HT as [|? ? [T1 T2] HT']; subst. cbn [update_classes].
    assert (Hids : Forall (fun i => i < nrows inputs) (class_rows cs d)).
    { apply Forall_forall. intros i Hi. pose proof (class_rows_lt cs d) as Q. rewrite Forall_forall in Q, HI. apply HI, in_seq. specialize (Q i Hi). lia. }
    destruct (class_rows cs d) as [|i ids] eqn:EC.
    - destruct Hc as [->|Hc]; [rewrite EC in L1; discriminate|]. now apply IH.
    - rewrite select_rows_spec by auto. cbn [d_update Gaussian]. unfold gauss_update. unfold nrows at 1. cbn [mrows]. rewrite map_length.
      destruct (length (i :: ids) <? 2) eqn:E; [reflexivity|].
      destruct Hc as [->|Hc]; [rewrite EC in L1; rewrite L1 in E; discriminate|].
      set (D := Mat _ _). destruct (set_row_ok (g_theta p) d (col_mean D) T1) as (t & E1 & N1). destruct (set_row_ok (g_sigma p) d (col_var D) T2) as (s & E2 & N2).
      rewrite E1, E2. apply IH; auto. cbn [g_theta g_sigma]. rewrite N1, N2. exact HT'.
  Qed.
  Theorem gauss_lonely (m : NaiveBayes F (Gauss F)) inputs targets cs c : mwf targets -> nrows targets = nrows inputs -> labelled targets cs ->
    count_occ Nat.eq_dec cs c = 1 -> snd (nb_train Gaussian m inputs targets) = Err InvalidData.
  Proof.
    intros W L H C. destruct (labels_lt _ _ W H) as [Hc Lc]. unfold nb_train. rewrite (find_classes_spec _ _ H).
    assert (IC : In c cs) by (apply (count_occ_In Nat.eq_dec); lia). rewrite Forall_forall in Hc.
    pose proof (lonely_update inputs cs c (seq 0 (mcols targets)) (d_new _ Gaussian (mcols targets) (mcols inputs)) (rows_in_range _ _ _ L Lc)) as Q.
    destruct (update_classes _ _ _ _ _) as [p r]. cbn [snd] in Q. rewrite Q; [reflexivity| | |].
    - apply Forall_forall. intros x Hx. apply in_seq in Hx. cbn. unfold nrows, mzeros. cbn. rewrite repeat_length. lia.
    - apply in_seq. specialize (Hc c IC). lia.
    - now rewrite class_rows_count.
  Qed.
End Lonely.

Definition lonely_inputs : matrix R := Mat [[1]; [2]; [5]]%R 1.
Definition lonely_targets : matrix R := Mat [[1; 0]; [1; 0]; [0; 1]]%R 2.
Lemma lonely_ok : mwf lonely_targets /\ nrows lonely_targets = nrows lonely_inputs /\ labelled lonely_targets [0; 0; 1] /\
  count_occ Nat.eq_dec [0; 0; 1] 1 = 1.
Proof.
  split; [repeat constructor|]. split; [reflexivity|]. split; [|reflexivity].
  - unfold labelled. cbn [mrows lonely_targets].
    assert (A : is_label [1; 0]%R 0).
    { unfold is_label. cbn. split; [lia|]. split; [|lia]. destruct (Req_EM_T 1 1); [reflexivity|congruence]. }
    assert (B : is_label [0; 1]%R 1).
    { unfold is_label. cbn. split; [lia|]. split; [destruct (Req_EM_T 1 1); [reflexivity|congruence]|].
      intros j Hj. replace j with 0 by lia. cbn. destruct (Req_EM_T 0 1); [exfalso; lra|reflexivity]. }
    exact (Forall2_cons _ _ A (Forall2_cons _ _ A (Forall2_cons _ _ B (Forall2_nil _)))).
Qed.
