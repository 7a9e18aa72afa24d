(** * Updating the distribution of one class (C195) *)
From Coq Require Import List Arith Lia Bool Reals Lra.
From Verif Require Import Base BaseLemmas Num NumFn Linalg Model_KMeans Proof_KMeans Model_NaiveBayes Spec_NBUpdate.
Import ListNotations.

Section Update.
  Context {F : Type} {N : Num F} {Fn : NumFn F}.
  Lemma upd_nth_error {A} (l : list A) : forall i x l', upd l i x = Some l' -> nth_error l' i = Some x /\ forall j, j <> i -> nth_error l' j = nth_error l j.
  Proof.
    induction l as [|a l IH]; intros i x l' H; [destruct i; discriminate|]. destruct i as [|i]; cbn in H.
    - injection H as <-. split; [reflexivity|]. intros [|j] Hj; [lia|reflexivity].
    - destruct (upd l i x) as [l2|] eqn:E; [|discriminate]. injection H as <-. destruct (IH _ _ _ E) as (A1 & A2). split; [exact A1|].
      intros [|j] Hj; [reflexivity|]. cbn. apply A2. lia.
  Qed.
  Lemma set_row_cases (m : matrix F) i r : (i < nrows m /\ exists m', set_row m i r = Some m' /\ overwrites m i r m') \/ (nrows m <= i /\ set_row m i r = None).
  Proof.
    unfold set_row. destruct (upd (mrows m) i r) as [l|] eqn:E.
    - left. split.
      + destruct (Nat.lt_ge_cases i (nrows m)) as [H|H]; [exact H|]. apply (upd_None (mrows m) i r) in H. congruence.
      + eexists. split; [reflexivity|]. destruct (upd_nth_error _ _ _ _ E) as (A1 & A2). unfold overwrites, nrows. cbn [mrows mcols].
        rewrite (upd_length _ _ _ _ E). auto.
    - right. split; [|reflexivity]. now apply upd_None in E.
  Qed.
  Lemma smooth_set_cases (p : Smooth F) c r :
    (c < nrows (s_log_probs p) -> exists p', smooth_set p c r = (p', Ok tt) /\ overwrites (s_log_probs p) c r (s_log_probs p')) /\
    (nrows (s_log_probs p) <= c -> smooth_set p c r = (p, Panic)).
  Proof.
    unfold smooth_set. destruct (set_row_cases (s_log_probs p) c r) as [(H & m' & -> & O)|(H & ->)]; split; intros K; try lia; eauto.
  Qed.
  Theorem bernoulli_updates (data : matrix F) : exists r, length r = mcols data /\ forall (p : Smooth F) c, mcols data = mcols (s_log_probs p) -> 0 < mcols data ->
    (c < nrows (s_log_probs p) -> exists p', d_update _ Bernoulli p data c = (p', Ok tt) /\ overwrites (s_log_probs p) c r (s_log_probs p')) /\
    (nrows (s_log_probs p) <= c -> d_update _ Bernoulli p data c = (p, Panic)).
  Proof.
    eexists. split; [|intros p c _ _; cbn [d_update Bernoulli]; unfold bernoulli_update; apply smooth_set_cases].
    rewrite !map_length. unfold col_sums. now rewrite ?map_length, ?seq_length.
  Qed.
  Theorem multinomial_updates (data : matrix F) : exists r, length r = mcols data /\ forall (p : Smooth F) c, mcols data = mcols (s_log_probs p) -> 0 < mcols data ->
    (c < nrows (s_log_probs p) -> exists p', d_update _ Multinomial p data c = (p', Ok tt) /\ overwrites (s_log_probs p) c r (s_log_probs p')) /\
    (nrows (s_log_probs p) <= c -> d_update _ Multinomial p data c = (p, Panic)).
  Proof.
    eexists. split; [|intros p c _ _; cbn [d_update Multinomial]; unfold multinomial_update; apply smooth_set_cases].
    rewrite !map_length. unfold col_sums. now rewrite ?map_length, ?seq_length.
  Qed.
  Theorem gaussian_updates (data : matrix F) : exists t s, length t = mcols data /\ length s = mcols data /\
    forall (p : Gauss F) c, mcols data = mcols (g_theta p) -> nrows (g_sigma p) = nrows (g_theta p) -> 0 < mcols data ->
    (nrows data < 2 -> d_update _ Gaussian p data c = (p, Err InvalidData)) /\
    (2 <= nrows data -> c < nrows (g_theta p) -> exists p', d_update _ Gaussian p data c = (p', Ok tt) /\
       overwrites (g_theta p) c t (g_theta p') /\ overwrites (g_sigma p) c s (g_sigma p')) /\
    (2 <= nrows data -> nrows (g_theta p) <= c -> d_update _ Gaussian p data c = (p, Panic)).
  Proof.
    exists (col_mean data), (col_var data). split; [|split].
    1,2: unfold col_mean, col_var, col_sums; now rewrite ?map_length, ?seq_length.
    intros p c _ Es _. cbn [d_update Gaussian]. unfold gauss_update. destruct (Nat.ltb_spec (nrows data) 2) as [L|L]; [repeat split; intros; try lia; reflexivity|].
    split; [intros; lia|]. split; intros _ H.
    - destruct (set_row_cases (g_theta p) c (col_mean data)) as [(_ & m1 & -> & O1)|(K & _)]; [|lia].
      destruct (set_row_cases (g_sigma p) c (col_var data)) as [(_ & m2 & -> & O2)|(K & _)]; [|lia]. eauto.
    - destruct (set_row_cases (g_theta p) c (col_mean data)) as [(K & _)|(_ & ->)]; [lia|]. reflexivity.
  Qed.
End Update.
