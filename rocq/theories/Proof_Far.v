(** * Far from the data a Gaussian process answers with its prior (C194) *)
From Coq Require Import List Arith Lia Bool Reals Lra.
From Verif Require Import Base BaseLemmas Num NumFn Linalg LinalgR Spec_Calc MatR Model_Kernel Spec_Kernel Proof_Kernel Model_GP Spec_GP Proof_GP Proof_GPEx Proof_GPRidgeEx Proof_GPMono
  Spec_Succeeds Proof_Succeeds Proof_Oracles Proof_SucceedsEx Spec_GPCopies Proof_GPPost Proof_GPCopiesEx Spec_Far.
From Verif Require Proof_KMeans.
Import ListNotations.
Local Open Scope R_scope.

Lemma choose_below {A} (a0 : A) (P : nat -> A -> Prop) n : (forall m, (m < n)%nat -> exists a, P m a) -> exists g, forall m, (m < n)%nat -> P m (g m).
Proof.
  induction n as [|n IH]; intros H; [exists (fun _ => a0); intros; lia|].
  destruct IH as (g & Hg); [intros m Hm; apply H; lia|]. destruct (H n) as (a & Ha); [lia|].
  exists (fun m => if (m =? n)%nat then a else g m). intros m Hm. destruct (Nat.eqb_spec m n) as [->|]; [exact Ha|apply Hg; lia].
Qed.
Lemma sumR_abs_le n f g : (forall i, (i < n)%nat -> Rabs (f i) <= g i) -> Rabs (sumR n f) <= sumR n g.
Proof.
  induction n as [|n IH]; intros H; cbn [sumR]; [rewrite Rabs_R0; lra|].
  eapply Rle_trans; [apply Rabs_triang|]. apply Rplus_le_compat; [apply IH; intros; apply H; lia|apply H; lia].
Qed.
Lemma against_small k X a x b : (forall j, (j < nrows X)%nat -> Rabs (k x (pt X j)) <= b) -> Rabs (against k X a x) <= b * sumR (nrows X) (fun j => Rabs (nth j a 0)).
Proof.
  intros H. unfold against. rewrite <- sumR_scal. apply sumR_abs_le. intros j Hj. rewrite Rabs_mult. apply Rmult_le_compat_r; [apply Rabs_pos|auto].
Qed.

Section Far.
  Context (ker : Kernel R) (k : list R -> list R -> R) (mean : MeanFunc R) (f : list R -> R) (cholesky : matrix R -> option (matrix R)) (solve_l solve_u : matrix R -> list R -> res (list R)).
  Hypothesis CH : cholesky_sound cholesky.
  Hypothesis SL : triangular_sound lower_triangular solve_l.
  Hypothesis SU : triangular_sound upper_triangular solve_u.
  Hypothesis M : mean_is mean f.
  Hypothesis FA : fades k.
  Context (X : matrix R) (y : list R) (s s' : GaussianProcess R).
  Hypothesis W : mwf X.
  Hypothesis KI : kernel_is (mcols X) ker k.
  Hypothesis T : gp_train ker mean cholesky solve_l solve_u s X y = (s', Ok tt).
  Let n := nrows X.

  Let row_length Z i : mwf Z -> (i < nrows Z)%nat -> length (pt Z i) = mcols Z.
  Proof. intros WZ H. unfold mwf in WZ. rewrite Forall_forall in WZ. apply WZ. unfold pt. now apply nth_In. Qed.
  Let far_small e : 0 < e -> exists d, forall x, length x = mcols X -> far_from X d x -> forall j, (j < n)%nat -> Rabs (k x (pt X j)) <= e.
  Proof.
    intros He. destruct (FA e He) as (d & Hd). exists d. intros x Lx Fx j Hj. apply Hd; [rewrite (row_length X j W Hj); exact Lx|]. apply Fx. unfold pt. now apply nth_In.
  Qed.
  Let mean_len Xs : length (mean Xs) = nrows Xs.
  Proof. rewrite M. apply map_length. Qed.

  Theorem far_mean e : 0 < e -> exists d, forall Xs, mwf Xs -> mcols Xs = mcols X ->
    exists out, gp_predict ker mean s' Xs = Ok out /\ length out = nrows Xs /\
      forall i, (i < nrows Xs)%nat -> far_from X d (nth i (mrows Xs) []) -> Rabs (nth i out 0 - f (nth i (mrows Xs) [])) <= e.
  Proof.
    intros He. destruct (gp_alpha_solves ker k mean cholesky solve_l solve_u s s' X y CH SL SU W KI T) as (_ & a & Ea & _).
    set (B := sumR n (fun j => Rabs (nth j a 0))). assert (B0 : 0 <= B) by (unfold B; apply sumR_ge0; intros; apply Rabs_pos).
    destruct (far_small (e / (B + 1))) as (d & Hd); [apply Rdiv_lt_0_compat; lra|]. exists d. intros Xs Ws Cs.
    destruct (gp_predict_mean ker k mean cholesky solve_l solve_u s s' X y CH SL SU W KI T Xs Ws Cs (mean_len Xs)) as (a' & out & Ea' & Eo & Lo & Ho).
    rewrite Ea in Ea'. injection Ea' as <-. exists out. split; [exact Eo|]. split; [exact Lo|]. intros i Hi Fi. rewrite Ho by auto.
    rewrite M, (nth_map _ _ _ _ []) by exact Hi. replace (_ + _ - _) with (against k X a (pt Xs i)) by ring.
    eapply Rle_trans; [apply (against_small k X a _ (e / (B + 1)))|].
    - apply Hd; [rewrite (row_length Xs i Ws Hi); exact Cs|exact Fi].
    - fold n B. apply Rmult_le_reg_r with (B + 1); [lra|]. replace (e / (B + 1) * B * (B + 1)) with (e * B) by (field; lra). nra.
  Qed.

  Let inverse_bound : exists B, 0 <= B /\ forall b d, 0 <= b -> (forall m, (m < n)%nat -> Rabs (d m) <= b) ->
    exists w, solves k (gp_noise s) X w d /\ sumR n (fun j => Rabs (nth j w 0)) <= b * B.
  Proof.
    destruct (choose_below [] (fun m w => solves k (gp_noise s) X w (fun i => if (m =? i)%nat then 1 else 0)) n) as (g & Hg).
    { intros m _. exact (solvable ker k mean cholesky solve_l solve_u s s' X y CH SL SU W KI T _). }
    exists (sumR n (fun j => sumR n (fun m => Rabs (nth j (g m) 0)))). split.
    { apply sumR_ge0. intros j _. apply sumR_ge0. intros; apply Rabs_pos. }
    intros b d Hb Hd. exists (map (fun j => sumR n (fun m => d m * nth j (g m) 0)) (seq 0 n)). split.
    - split; [now rewrite map_length, seq_length|]. intros i Hi. rewrite nth_map_seq by exact Hi. fold n.
      rewrite (sumR_ext n _ (fun j => sumR n (fun m => d m * (k (pt X i) (pt X j) * nth j (g m) 0)))).
      2:{ intros j Hj. rewrite nth_map_seq by exact Hj. rewrite <- sumR_scal. apply sumR_ext. intros; ring. }
      rewrite Proof_KMeans.sumR_exch, <- sumR_scal, <- sumR_plus.
      rewrite (sumR_ext n _ (fun m => if (i =? m)%nat then d m else 0)); [now apply Proof_KMeans.sumR_pick|].
      intros m Hm. rewrite sumR_scal. destruct (Hg m Hm) as (_ & H). specialize (H i Hi). fold n in H. rewrite Nat.eqb_sym.
      replace (_ + _) with (d m * (sumR n (fun j => k (pt X i) (pt X j) * nth j (g m) 0) + gp_noise s * nth i (g m) 0)) by ring. rewrite H. destruct (m =? i)%nat; ring.
    - rewrite <- sumR_scal. apply sumR_le. intros j Hj. rewrite nth_map_seq by exact Hj. rewrite <- sumR_scal. apply sumR_abs_le. intros m Hm.
      rewrite Rabs_mult. apply Rmult_le_compat_r; [apply Rabs_pos|auto].
  Qed.

  Theorem far_covariance e : 0 < e -> exists d, forall Xs out V, mwf Xs -> mcols Xs = mcols X -> gp_get_posterior ker mean solve_l s' Xs = Ok (out, V) ->
    forall i j, (i < nrows Xs)%nat -> (j < nrows Xs)%nat -> far_from X d (nth i (mrows Xs) []) -> far_from X d (nth j (mrows Xs) []) ->
    Rabs (entry V i j - k (nth i (mrows Xs) []) (nth j (mrows Xs) [])) <= e.
  Proof.
    intros He. destruct inverse_bound as (B & B0 & HB). set (b := Rmin 1 (e / (B + 1))).
    assert (Q : 0 < e / (B + 1)) by (apply Rdiv_lt_0_compat; lra).
    assert (b0 : 0 < b) by (unfold b; apply Rmin_pos; lra). assert (b1 : b <= 1) by apply Rmin_l. assert (b2 : b <= e / (B + 1)) by apply Rmin_r.
    destruct (far_small b b0) as (d & Hd). exists d. intros Xs out V Ws Cs P i j Hi Hj Fi Fj.
    destruct (gp_posterior' ker k mean cholesky solve_l solve_u s s' X y CH SL W KI T Xs out V Ws Cs P) as (_ & _ & _ & _ & H & _).
    assert (Li : length (pt Xs i) = mcols X) by (rewrite (row_length Xs i Ws Hi); exact Cs). assert (Lj : length (pt Xs j) = mcols X) by (rewrite (row_length Xs j Ws Hj); exact Cs).
    destruct (HB b (fun m => k (pt Xs j) (pt X m)) ltac:(lra) (Hd _ Lj Fj)) as (w & Sw & Bw).
    rewrite (H i j w Hi Hj Sw). fold (pt Xs i) (pt Xs j). replace (_ - _ - _) with (- against k X w (pt Xs i)) by ring. rewrite Rabs_Ropp.
    eapply Rle_trans; [exact (against_small k X w _ b (Hd _ Li Fi))|]. fold n.
    assert (K : b * (B + 1) <= e).
    { apply Rmult_le_compat_r with (r := B + 1) in b2; [|lra]. replace (e / (B + 1) * (B + 1)) with e in b2 by (field; lra). exact b2. }
    apply Rle_trans with (b * (b * B)); [apply Rmult_le_compat_l; lra|]. assert (b * B <= B) by nra. nra.
  Qed.
End Far.

(** The squared exponential kernel fades. *)
Lemma squared_exp_fades l a : l <> 0 -> fades (fun x x' => a * exp (- sqdist x x' / (2 * l * l))).
Proof.
  intros Hl e He. assert (L2 : 0 < 2 * l * l) by nra. exists (2 * l * l * (Rabs a / e)). intros x x' _ H.
  rewrite Rabs_mult, (Rabs_right (exp _)) by (left; apply exp_pos).
  set (u := sqdist x x' / (2 * l * l)). assert (Hu : Rabs a / e <= u).
  { unfold u. apply Rmult_le_reg_r with (2 * l * l); [exact L2|]. replace (sqdist x x' / (2 * l * l) * (2 * l * l)) with (sqdist x x') by (field; lra). lra. }
  replace (- sqdist x x' / (2 * l * l)) with (- u) by (unfold u; field; lra). rewrite exp_Ropp.
  assert (U0 : 0 <= u) by (eapply Rle_trans; [|exact Hu]; apply Rmult_le_pos; [apply Rabs_pos|left; now apply Rinv_0_lt_compat]).
  pose proof (exp_ineq1_le u) as E. apply Rmult_le_reg_r with (exp u); [apply exp_pos|]. rewrite Rmult_assoc, Rinv_l by (pose proof (exp_pos u); lra).
  assert (K : Rabs a <= e * u). { apply Rmult_le_compat_l with (r := e) in Hu; [|lra]. replace (e * (Rabs a / e)) with (Rabs a) in Hu by (field; lra). exact Hu. }
  nra.
Qed.
(** ** A concrete case *)
Lemma far_case : fades se /\ exists m out V,
  gp_train (k_squared_exp 1 1) (const_mean 1) cholesky_any solve_any solve_any (gp_new (/ 10)) Line [9; 4; 1] = (m, Ok tt) /\
  gp_get_posterior (k_squared_exp 1 1) (const_mean 1) solve_any m Line = Ok (out, V).
Proof.
  split; [apply (squared_exp_fades 1 1); lra|]. destruct gp_trains_ex as (m & E). exists m. destruct (copies_posterior m E) as (out & V & P). eauto.
Qed.
Lemma far_point : far_from Line 100 [20; 20].
Proof. intros r H. cbn in H. unfold sqdist. destruct H as [<-|[<-|[<-|[]]]]; cbn [length sumR nth]; lra. Qed.
Lemma squared_exp_fades_is dim l a : l <> 0 -> exists k, kernel_is dim (k_squared_exp l a) k /\ fades k.
Proof.
  intros Hl. exists (fun x x' => a * exp (- sqdist x x' / (2 * l * l))). split; [|now apply squared_exp_fades]. intros x x' L L'. apply squared_exp_R. congruence.
Qed.
