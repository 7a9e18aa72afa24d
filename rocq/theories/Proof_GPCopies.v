(** * Repeated samples for Gaussian processes *)
From Coq Require Import List Arith Lia Bool Reals Lra.
From Verif Require Import Base BaseLemmas Num NumFn Linalg LinalgR Spec_Calc MatR Model_Kernel Model_GP Spec_GP Proof_GP Proof_GPRidgeEx Proof_GPMono Spec_Equiv Proof_Equiv Proof_DBMore Spec_GPCopies.
Import ListNotations.
Local Open Scope R_scope.

Lemma sumR_join m n f : sumR (m + n) f = sumR m f + sumR n (fun i => f (m + i)%nat).
Proof. induction n as [|n IH]; [rewrite Nat.add_0_r; cbn; ring|]. rewrite Nat.add_succ_r. cbn [sumR]. rewrite IH. ring. Qed.
Lemma sumR_mod q n f : sumR (q * n) (fun i => f (i mod n)%nat) = INR q * sumR n f.
Proof.
  induction q as [|q IH]; [cbn; ring|]. rewrite S_INR. replace (S q * n)%nat with (n + q * n)%nat by lia. rewrite sumR_join.
  destruct (Nat.eq_dec n 0) as [->|Hn]; [rewrite Nat.mul_0_r; cbn [sumR]; ring|].
  rewrite (sumR_ext n (fun i => f (i mod n)%nat) f) by (intros i Hi; now rewrite Nat.mod_small).
  rewrite (sumR_ext (q * n) (fun i => f ((n + i) mod n)%nat) (fun i => f (i mod n)%nat)).
  - rewrite IH. ring.
  - intros i _. f_equal. rewrite Nat.add_comm. rewrite <- (Nat.mul_1_l n) at 1. now apply Nat.mod_add.
Qed.

Section Copies.
  Context (q : nat) (X : matrix R) (k : list R -> list R -> R).
  Hypothesis Q : (0 < q)%nat.
  Let n := nrows X.
  Let X' := copied q X.
  Let q0 : INR q <> 0. Proof. apply not_0_INR. lia. Qed.
  Lemma copied_nrows : nrows X' = (q * n)%nat.
  Proof. unfold X', copied, nrows. cbn [mrows]. apply times_length. Qed.
  Lemma copied_pt i : (i < q * n)%nat -> pt X' i = pt X (i mod n).
  Proof. intros H. unfold pt, X', copied. cbn [mrows]. now apply times_nth. Qed.
  Lemma copied_wf : mwf X -> mwf X'.
  Proof. intros W. now apply (times_wf q X). Qed.
  Definition shared (a : list R) : list R := times q (map (fun z => z / INR q) a).
  Lemma shared_nth a i : length a = n -> (i < q * n)%nat -> nth i (shared a) 0 = nth (i mod n) a 0 / INR q.
  Proof.
    intros L H. unfold shared. rewrite times_nth by (rewrite map_length, L; exact H). rewrite map_length, L.
    rewrite (nth_map (fun z => z / INR q) a _ 0 0); [reflexivity|]. rewrite L. apply Nat.mod_upper_bound. lia.
  Qed.
  Lemma shared_against a x : length a = n -> against k X' (shared a) x = against k X a x.
  Proof.
    intros L. unfold against. rewrite copied_nrows.
    rewrite (sumR_ext (q * n) _ (fun j => (fun j => k x (pt X j) * nth j a 0 / INR q) (j mod n)%nat)).
    - rewrite (sumR_mod q n (fun j => k x (pt X j) * nth j a 0 / INR q)). rewrite <- sumR_scal. apply sumR_ext. intros j _. field. exact q0.
    - intros j Hj. rewrite copied_pt, shared_nth by auto. field. exact q0.
  Qed.
  Lemma shared_solves s a d d' : solves k (s / INR q) X a d -> (forall i, (i < q * n)%nat -> d' i = d (i mod n)%nat) -> solves k s X' (shared a) d'.
  Proof.
    intros (L & H) Hd. split.
    - rewrite copied_nrows. unfold shared. rewrite times_length, map_length, L. reflexivity.
    - rewrite copied_nrows. intros i Hi. rewrite Hd by auto. rewrite copied_pt, shared_nth by auto.
      assert (Hm : (i mod n < n)%nat) by (apply Nat.mod_upper_bound; lia). rewrite <- (H _ Hm).
      pose proof (shared_against a (pt X (i mod n)) L) as E. unfold against in E. rewrite copied_nrows in E. rewrite E. field. exact q0.
  Qed.
End Copies.

Lemma mat_ext_entry (A B : matrix R) : mwf A -> mwf B -> nrows A = nrows B -> mcols A = mcols B ->
  (forall i j, (i < nrows A)%nat -> (j < mcols A)%nat -> entry A i j = entry B i j) -> A = B.
Proof.
  destruct A as [ra ca], B as [rb cb]. unfold mwf, nrows, entry. cbn [mrows mcols]. intros WA WB N C H. subst cb. f_equal.
  apply (nth_ext _ _ [] []); [exact N|]. intros i Hi. rewrite Forall_forall in WA, WB.
  assert (La : length (nth i ra []) = ca) by (apply WA, nth_In; exact Hi). assert (Lb : length (nth i rb []) = ca) by (apply WB, nth_In; lia).
  apply (nth_ext _ _ 0 0); [congruence|]. intros j Hj. apply H; [exact Hi|lia].
Qed.
Section GP.
  Context (ker : Kernel R) (k : list R -> list R -> R) (mean : MeanFunc R) (f : list R -> R) (cholesky : matrix R -> option (matrix R)) (solve_l solve_u : matrix R -> list R -> res (list R)).
  Hypothesis CH : cholesky_sound cholesky.
  Hypothesis SL : triangular_sound lower_triangular solve_l.
  Hypothesis SU : triangular_sound upper_triangular solve_u.
  Hypothesis M : mean_is mean f.
  Context (q : nat) (X : matrix R) (y : list R) (s1 s1' s2 s2' : GaussianProcess R).
  Hypothesis Q : (0 < q)%nat.
  Hypothesis W : mwf X.
  Hypothesis KI : kernel_is (mcols X) ker k.
  Hypothesis NS : gp_noise s2 = INR q * gp_noise s1.
  Hypothesis T1 : gp_train ker mean cholesky solve_l solve_u s1 X y = (s1', Ok tt).
  Hypothesis T2 : gp_train ker mean cholesky solve_l solve_u s2 (copied q X) (times q y) = (s2', Ok tt).

  Let noise1 : gp_noise s1 = gp_noise s2 / INR q.
  Proof. rewrite NS. field. apply not_0_INR. lia. Qed.
  Lemma mean_length Xs : length (mean Xs) = nrows Xs.
  Proof. rewrite M. apply map_length. Qed.

  Theorem gp_copies_predict Xs : mwf Xs -> mcols Xs = mcols X -> gp_predict ker mean s2' Xs = gp_predict ker mean s1' Xs.
  Proof.
    intros Ws Cs. pose proof (copied_wf q X W) as W'.
    destruct (gp_alpha_solves ker k mean cholesky solve_l solve_u s1 s1' X y CH SL SU W KI T1) as (Ly & a & Ea & Sa & _).
    destruct (gp_alpha_solves ker k mean cholesky solve_l solve_u s2 s2' (copied q X) (times q y) CH SL SU W' KI T2) as (Ly' & a' & Ea' & Sa' & Ua').
    rewrite mean_length in Ly.
    assert (E : shared q a = a').
    { apply Ua'. apply (shared_solves q X k Q _ _ (fun i => nth i y 0 - nth i (mean X) 0)); [rewrite <- noise1; exact Sa|].
      intros i Hi. rewrite times_nth by (rewrite Ly; exact Hi). rewrite Ly. f_equal. rewrite !M. unfold copied. cbn [mrows].
      rewrite times_map. rewrite times_nth by (rewrite map_length; exact Hi). rewrite map_length. reflexivity. }
    destruct (gp_predict_mean ker k mean cholesky solve_l solve_u s1 s1' X y CH SL SU W KI T1 Xs Ws Cs (mean_length Xs)) as (b & o & Eb & Po & Lo & Ho).
    destruct (gp_predict_mean ker k mean cholesky solve_l solve_u s2 s2' (copied q X) (times q y) CH SL SU W' KI T2 Xs Ws Cs (mean_length Xs)) as (b' & o' & Eb' & Po' & Lo' & Ho').
    rewrite Ea in Eb. injection Eb as <-. rewrite Ea' in Eb'. injection Eb' as <-. rewrite Po, Po'. f_equal.
    apply (nth_ext _ _ 0 0); [congruence|]. intros i Hi. rewrite Lo' in Hi. rewrite Ho, Ho' by auto. f_equal. rewrite <- E. apply shared_against; [exact Q|]. apply Sa.
  Qed.
  Theorem gp_copies_posterior Xs o1 V1 o2 V2 : mwf Xs -> mcols Xs = mcols X ->
    gp_get_posterior ker mean solve_l s1' Xs = Ok (o1, V1) -> gp_get_posterior ker mean solve_l s2' Xs = Ok (o2, V2) -> o2 = o1 /\ V2 = V1.
  Proof.
    intros Ws Cs P1 P2. pose proof (copied_wf q X W) as W'.
    destruct (gp_posterior' ker k mean cholesky solve_l solve_u s1 s1' X y CH SL W KI T1 Xs o1 V1 Ws Cs P1) as (A1 & B1 & C1 & D1 & H1 & _).
    destruct (gp_posterior' ker k mean cholesky solve_l solve_u s2 s2' (copied q X) (times q y) CH SL W' KI T2 Xs o2 V2 Ws Cs P2) as (A2 & B2 & C2 & D2 & H2 & _).
    rewrite (gp_copies_predict Xs Ws Cs), A1 in A2. injection A2 as <-. split; [reflexivity|].
    apply mat_ext_entry; auto; try congruence. intros i j Hi Hj.
    destruct (solvable ker k mean cholesky solve_l solve_u s1 s1' X y CH SL SU W KI T1 (fun m => k (pt Xs j) (pt X m))) as (w & Sw).
    rewrite C2 in Hi. rewrite D2 in Hj. rewrite (H1 i j w Hi Hj Sw).
    rewrite (H2 i j (shared q w) Hi Hj).
    - f_equal. apply shared_against; [exact Q|]. apply Sw.
    - apply (shared_solves q X k Q _ _ (fun m => k (pt Xs j) (pt X m))); [rewrite <- noise1; exact Sw|]. intros m Hm. now rewrite copied_pt.
  Qed.
End GP.
