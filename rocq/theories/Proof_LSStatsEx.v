(** * Least squares as a statistical estimate: statements over lists and cases *)
From Coq Require Import List Arith Lia Bool Reals Lra.
From Verif Require Import Base BaseLemmas Num Linalg LinalgR Spec_Calc CalcR Model_Regression Spec_Regression Proof_Regression
  Spec_Succeeds Proof_Succeeds Proof_Oracles Proof_SucceedsEx Spec_LSStats Proof_LSStats Proof_LSStats2.
Import ListNotations.
Local Open Scope R_scope.

(** What is stored after training on [y]. *)
Definition stored_for (solve : matrix R -> list R -> res (list R)) (X : matrix R) (y : list R) : list R :=
  match lr_parameters (fst (lr_train solve lr_default X y)) with Some p => p | None => [] end.
Lemma stored_learns solve X y : mwf X -> solver_exact solve -> spans X -> length y = nrows X -> learns solve X y (stored_for solve X y).
Proof.
  intros W Se Sp Ly. destruct (proj2 (learns_iff X W solve Se y) (conj Ly Sp)) as (p & H).
  assert (E : stored_for solve X y = p) by (unfold stored_for; now rewrite (H lr_default)). now rewrite E.
Qed.
Lemma indicator_length n i : length (indicator n i) = n.
Proof. unfold indicator. now rewrite map_length, seq_length. Qed.

Section Lists.
  Variable X : matrix R.
  Hypothesis W : mwf X.
  Variable solve : matrix R -> list R -> res (list R).
  Hypothesis Se : solver_exact solve.
  Hypothesis Sp : spans X.

  Lemma all_ind i : (i < nrows X)%nat -> learns solve X (indicator (nrows X) i) (stored_for solve X (indicator (nrows X) i)).
  Proof. intros _. apply stored_learns; auto. apply indicator_length. Qed.
  Lemma learns_same y p p' : learns solve X y p -> learns solve X y p' -> p = p'.
  Proof. intros H H'. specialize (H lr_default). specialize (H' lr_default). rewrite H in H'. now injection H'. Qed.

  Theorem residual_variance m pr e s2 w params : noise_law (nrows X) m pr e s2 -> length w = S (mcols X) ->
    (forall s, (s < m)%nat -> learns solve X (observed X w (e s)) (params s)) ->
    sumR m (fun s => pr s * rss X (observed X w (e s)) (params s)) = s2 * (INR (nrows X) - INR (S (mcols X))).
  Proof. exact (residual_mean X W solve Se Sp _ all_ind m pr e s2 w params). Qed.

  Theorem leverages P : (forall i, (i < nrows X)%nat -> learns solve X (indicator (nrows X) i) (P i)) ->
    (forall i, (i < nrows X)%nat -> / INR (nrows X) <= affine (P i) (nth i (mrows X) []) <= 1) /\
    sumR (nrows X) (fun i => affine (P i) (nth i (mrows X) [])) = INR (S (mcols X)).
  Proof.
    intros HP. split.
    - intros i Hi. rewrite affine_aff by auto. exact (leverage_range X W solve Se P HP i Hi).
    - rewrite <- (trace X W solve Se Sp P HP). apply sumR_ext. intros i Hi. now rewrite affine_aff.
  Qed.

  Theorem leave_one_out i y p p' g : (i < nrows X)%nat -> learns solve X y p -> learns solve X (indicator (nrows X) i) g ->
    learns solve (leave_out i X) (without i y) p' ->
    (1 - affine g (nth i (mrows X) [])) * (nth i y 0 - affine p' (nth i (mrows X) [])) = nth i y 0 - affine p (nth i (mrows X) []).
  Proof.
    intros Hi H Hg H'. rewrite !affine_aff by auto. rewrite (learns_same _ _ _ Hg (all_ind i Hi)).
    exact (loo_identity X W solve Se Sp _ all_ind i Hi y p p' H H').
  Qed.

  Theorem leave_one_out_trains i y g : (i < nrows X)%nat -> length y = nrows X -> learns solve X (indicator (nrows X) i) g ->
    ((exists p', learns solve (leave_out i X) (without i y) p') <-> affine g (nth i (mrows X) []) < 1).
  Proof.
    intros Hi Ly Hg. rewrite affine_aff by auto. rewrite (learns_same _ _ _ Hg (all_ind i Hi)).
    exact (loo_trains X W solve Se Sp _ all_ind i Hi y Ly).
  Qed.

  Theorem gauss_markov_full m pr e s2 w params : noise_law (nrows X) m pr e s2 -> length w = S (mcols X) ->
    (forall s, (s < m)%nat -> learns solve X (observed X w (e s)) (params s)) ->
    (forall k, (k < S (mcols X))%nat -> sumR m (fun s => pr s * nth k (params s) 0) = nth k w 0) /\
    forall c u, length c = S (mcols X) -> length u = nrows X -> unbiased X c u ->
      spread m pr (fun s => pairing (S (mcols X)) c (params s)) (pairing (S (mcols X)) c w) <=
      spread m pr (fun s => pairing (nrows X) u (observed X w (e s))) (pairing (S (mcols X)) c w).
  Proof.
    intros NL Lw Tr. split.
    - exact (mean_params X W m pr e s2 NL solve Se Sp w params Tr).
    - exact (gauss_markov X W m pr e s2 NL solve Se Sp w params Lw Tr).
  Qed.
  Theorem gauss_markov_only m pr e s2 w params : noise_law (nrows X) m pr e s2 -> length w = S (mcols X) ->
    (forall s, (s < m)%nat -> learns solve X (observed X w (e s)) (params s)) ->
    forall c u, length c = S (mcols X) -> length u = nrows X -> unbiased X c u -> 0 < s2 ->
      spread m pr (fun s => pairing (nrows X) u (observed X w (e s))) (pairing (S (mcols X)) c w) <=
      spread m pr (fun s => pairing (S (mcols X)) c (params s)) (pairing (S (mcols X)) c w) ->
      forall y p, learns solve X y p -> pairing (S (mcols X)) c p = pairing (nrows X) u y.
  Proof. intros NL Lw Tr. exact (only_best X W m pr e s2 NL solve Se Sp w params Lw Tr). Qed.
End Lists.

(** ** Three points on a line *)
Definition X3 : matrix R := Mat [[0]; [1]; [2]] 1.
Lemma X3_wf : mwf X3. Proof. repeat constructor. Qed.
Lemma X3_spans : spans X3.
Proof.
  intros q Lq H. destruct q as [|a [|b [|]]]; try discriminate. cbn [mcols X3] in *.
  pose proof (H [0] (or_introl eq_refl)) as A. pose proof (H [1] (or_intror (or_introl eq_refl))) as B.
  unfold affine in A, B. cbn in A, B. cbn [repeat]. f_equal; [lra|]. f_equal. lra.
Qed.
(** Four equally likely outcomes of unit noise. *)
Definition e4 (s : nat) : list R := nth s [[1; 1; 1]; [1; -1; -1]; [-1; 1; -1]; [-1; -1; 1]] [].
Lemma e4_law : noise_law (nrows X3) 4 (fun _ => / 4) e4 1.
Proof.
  split.
  - intros; lra.
  - cbn; lra.
  - intros s Hs. do 4 (destruct s as [|s]; [reflexivity|]). lia.
  - intros i Hi. do 3 (destruct i as [|i]; [cbn; lra|]). cbn in Hi. lia.
  - intros i Hi. do 3 (destruct i as [|i]; [cbn; lra|]). cbn in Hi. lia.
  - intros i j Hi Hj N. cbn in Hi, Hj.
    do 3 (destruct i as [|i]; [do 3 (destruct j as [|j]; [first [lia | cbn; lra]|]); lia|]). lia.
Qed.
Lemma case_law : solver_exact solve_any /\ mwf X3 /\ spans X3 /\ noise_law (nrows X3) 4 (fun _ => / 4) e4 1 /\
  (exists params, forall s, (s < 4)%nat -> learns solve_any X3 (observed X3 [5; 2] (e4 s)) (params s)) /\
  unbiased X3 [0; 1] [-1; 1; 0].
Proof.
  split; [exact solve_any_exact|]. split; [exact X3_wf|]. split; [exact X3_spans|]. split; [exact e4_law|]. split.
  - exists (fun s => stored_for solve_any X3 (observed X3 [5; 2] (e4 s))). intros s Hs.
    apply stored_learns; auto using X3_wf, solve_any_exact, X3_spans.
    do 4 (destruct s as [|s]; [reflexivity|]). lia.
  - intros v Lv. destruct v as [|a [|b [|]]]; try discriminate. unfold pairing, affine. cbn. lra.
Qed.
Lemma case_loo : solver_exact solve_any /\ mwf X3 /\ spans X3 /\
  (exists p, learns solve_any X3 [1; 4; 2] p) /\
  (exists g, learns solve_any X3 (indicator 3 1) g /\ affine g [1] = / 3) /\
  exists p', learns solve_any (leave_out 1 X3) (without 1 [1; 4; 2]) p'.
Proof.
  split; [exact solve_any_exact|]. split; [exact X3_wf|]. split; [exact X3_spans|].
  assert (L : forall y, length y = 3%nat -> exists p, learns solve_any X3 y p).
  { intros y Ly. apply (learns_iff X3 X3_wf solve_any solve_any_exact y). split; [exact Ly|exact X3_spans]. }
  split; [now apply L|].
  destruct (L (indicator 3 1) (indicator_length 3 1)) as (g & Hg).
  assert (V : affine g [1] = / 3).
  { pose proof (residuals X3 X3_wf solve_any _ _ (proj1 solve_any_exact) Hg) as Rs.
    pose proof (Rs [1; 0] eq_refl) as A. pose proof (Rs [0; 1] eq_refl) as B. unfold affine in *. cbn in *. lra. }
  split; [exists g; split; [exact Hg|exact V]|].
  apply (proj2 (leave_one_out_trains X3 X3_wf solve_any solve_any_exact X3_spans 1 [1; 4; 2] g ltac:(cbn; lia) eq_refl Hg)).
  change (nth 1 (mrows X3) []) with [1]. rewrite V. lra.
Qed.

Lemma slope_X3 p y : learns solve_any X3 y p -> nth 1 p 0 = - / 2 * nth 0 y 0 + / 2 * nth 2 y 0.
Proof.
  intros H. pose proof (residuals X3 X3_wf solve_any _ _ (proj1 solve_any_exact) H) as Rs.
  pose proof (Rs [1; 0] eq_refl) as A. pose proof (Rs [0; 1] eq_refl) as B. unfold affine in *. cbn in *. lra.
Qed.
Lemma case_best : solver_exact solve_any /\ mwf X3 /\ spans X3 /\ noise_law (nrows X3) 4 (fun _ => / 4) e4 1 /\
  (exists params, forall s, (s < 4)%nat -> learns solve_any X3 (observed X3 [5; 2] (e4 s)) (params s)) /\
  unbiased X3 [0; 1] [- / 2; 0; / 2] /\
  forall p y, learns solve_any X3 y p -> nth 1 p 0 = - / 2 * nth 0 y 0 + / 2 * nth 2 y 0.
Proof.
  destruct case_law as (A & B & C & D & E & _). repeat (split; [assumption|]). split; [|exact slope_X3].
  intros v Lv. destruct v as [|a [|b [|]]]; try discriminate. unfold pairing, affine. cbn. lra.
Qed.
