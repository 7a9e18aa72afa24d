(** Lemmas for [Props_GPMono]: how the Gaussian process depends on targets, data and noise. *)
From Coq Require Import List Arith Lia Bool Reals Lra.
From Verif Require Import Base BaseLemmas Num NumFn Linalg LinalgR Spec_Calc CalcR MatR Proof_KMeans Model_Optim Proof_Optim
  Model_Regression Proof_Regression Model_Kernel Spec_Kernel Model_GP Spec_GP Proof_GP.
Import ListNotations.
Local Open Scope R_scope.

(** ** Square systems *)
(** Fewer equations than unknowns: there is a solution that is not zero. *)
Lemma more_unknowns : forall m n (A : nat -> nat -> R), (m < n)%nat -> exists x, (exists j, (j < n)%nat /\ x j <> 0) /\
  forall i, (i < m)%nat -> sumR n (fun j => A i j * x j) = 0.
Proof.
  induction m as [|m IH]; intros n A Hn.
  - exists (fun _ => 1). split; [exists 0%nat; split; [lia|lra]|]. intros; lia.
  - destruct n as [|n]; [lia|].
    assert (D : (exists p, (p < S m)%nat /\ A p n <> 0) \/ forall p, (p < S m)%nat -> A p n = 0).
    { generalize (S m). clear. induction n0 as [|k IH]; [right; intros; lia|]. destruct IH as [(p & Hp & E)|H]; [left; exists p; split; [lia|auto]|].
      destruct (Req_EM_T (A k n) 0) as [E|E]; [right|left; exists k; split; [lia|auto]]. intros p Hp. destruct (Nat.eq_dec p k) as [->|]; auto. apply H. lia. }
    destruct D as [(p & Hp & E)|Z].
    + set (r := fun i => if (i <? p)%nat then i else S i).
      destruct (IH n (fun i j => A (r i) j - A (r i) n / A p n * A p j) ltac:(lia)) as (x & (j0 & Hj0 & Nz) & Hx).
      set (t := - sumR n (fun j => A p j * x j) / A p n).
      exists (fun j => if (j =? n)%nat then t else x j). split.
      { exists j0. split; [lia|]. destruct (Nat.eqb_spec j0 n); [lia|auto]. }
      assert (S' : forall i, sumR (S n) (fun j => A i j * (if (j =? n)%nat then t else x j)) = sumR n (fun j => A i j * x j) + A i n * t).
      { intros i. cbn [sumR]. rewrite Nat.eqb_refl. f_equal. apply sumR_ext. intros j Hj. destruct (Nat.eqb_spec j n); [lia|reflexivity]. }
      intros i Hi. rewrite S'. destruct (Nat.eq_dec i p) as [->|Hip].
      * unfold t. field. exact E.
      * assert (Hr : exists i', (i' < m)%nat /\ r i' = i).
        { destruct (Nat.lt_ge_cases i p) as [Hlt|Hge].
          - exists i. split; [lia|]. unfold r. destruct (Nat.ltb_spec i p); lia.
          - exists (i - 1)%nat. split; [lia|]. unfold r. destruct (Nat.ltb_spec (i - 1) p); lia. }
        destruct Hr as (i' & Hi' & Ei). specialize (Hx i' Hi'). rewrite Ei in Hx.
        rewrite (sumR_ext n _ (fun j => A i j * x j + - (A i n / A p n) * (A p j * x j))) in Hx by (intros; ring). rewrite sumR_plus, sumR_scal in Hx.
        unfold t. replace (A i n * (- sumR n (fun j => A p j * x j) / A p n)) with (- (A i n / A p n) * sumR n (fun j => A p j * x j)) by (field; exact E). exact Hx.
    + exists (fun j => if (j =? n)%nat then 1 else 0). split; [exists n; rewrite Nat.eqb_refl; split; [lia|lra]|].
      intros i Hi. cbn [sumR]. rewrite Nat.eqb_refl, Z by auto. rewrite (sumR_ext n _ (fun _ => 0)); [rewrite sumR_const; ring|].
      intros j Hj. destruct (Nat.eqb_spec j n); [lia|ring].
Qed.
Lemma one_to_one_onto n (A : nat -> nat -> R) : (forall x, (forall i, (i < n)%nat -> sumR n (fun j => A i j * x j) = 0) -> forall j, (j < n)%nat -> x j = 0) ->
  forall b : nat -> R, exists x, forall i, (i < n)%nat -> sumR n (fun j => A i j * x j) = b i.
Proof.
  intros I b. destruct (more_unknowns n (S n) (fun i j => if (j =? n)%nat then - b i else A i j) ltac:(lia)) as (x & (j0 & Hj0 & Nz) & Hx).
  assert (S' : forall i, (i < n)%nat -> sumR n (fun j => A i j * x j) = b i * x n).
  { intros i Hi. specialize (Hx i Hi). cbn [sumR] in Hx. rewrite Nat.eqb_refl in Hx. rewrite (sumR_ext n _ (fun j => A i j * x j)) in Hx; [lra|].
    intros j Hj. destruct (Nat.eqb_spec j n); [lia|reflexivity]. }
  assert (Xn : x n <> 0).
  { intros Z. apply Nz. destruct (Nat.eq_dec j0 n) as [->|]; [exact Z|]. apply I; [|lia]. intros i Hi. rewrite S', Z by auto. ring. }
  exists (fun j => x j / x n). intros i Hi. rewrite (sumR_ext n _ (fun j => / x n * (A i j * x j))) by (intros; field; exact Xn).
  rewrite sumR_scal, S' by auto. field. exact Xn.
Qed.
(** A square matrix whose system with one right-hand side has one solution solves every system. *)
Lemma unique_onto (L : matrix R) n b x : mwf L -> nrows L = n -> mcols L = n -> length x = n -> mat_vec L x = b ->
  (forall x', length x' = n -> mat_vec L x' = b -> x' = x) -> forall d, length d = n -> exists z, length z = n /\ mat_vec L z = d.
Proof.
  intros W RL CL Lx E U d Ld.
  destruct (one_to_one_onto n (entry L)) with (b := fun i => nth i d 0) as (z & Hz).
  - intros v Hv j Hj. set (vl := map v (seq 0 n)).
    assert (Lvl : length vl = n) by (unfold vl; now rewrite map_length, seq_length).
    assert (Ev : forall j, (j < n)%nat -> nth j vl 0 = v j) by (intros; unfold vl; now rewrite (nth_map_seq _ _ _ 0)).
    assert (La : length (vadd x vl) = n) by (rewrite vadd_len'; lia).
    assert (Q : vadd x vl = x).
    { apply U; [exact La|]. rewrite <- E. apply vec_ext; rewrite !mat_vec_length'; [reflexivity|]. intros i Hi.
      rewrite !mat_vec_nth by (auto; lia). rewrite CL.
      rewrite (sumR_ext n _ (fun j => entry L i j * nth j x 0 + entry L i j * v j)); [rewrite sumR_plus, Hv by lia; ring|].
      intros m Hm. rewrite vadd_nth, Ev by lia. ring. }
    apply (f_equal (fun l => nth j l 0)) in Q. rewrite vadd_nth, Ev in Q by lia. lra.
  - exists (map z (seq 0 n)). assert (Lz : length (map z (seq 0 n)) = n) by (now rewrite map_length, seq_length). split; [exact Lz|].
    apply vec_ext; rewrite mat_vec_length'; [lia|]. intros i Hi. rewrite mat_vec_nth by (auto; lia). rewrite CL, <- Hz by lia.
    apply sumR_ext. intros j Hj. now rewrite (nth_map_seq _ _ _ 0).
Qed.

Section Trained.
  Variables (ker : Kernel R) (k : list R -> list R -> R) (mean : MeanFunc R) (cholesky : matrix R -> option (matrix R))
    (solve_l solve_u : matrix R -> list R -> res (list R)) (self self' : GaussianProcess R) (X : matrix R) (y : list R).
  Hypothesis Ch : cholesky_sound cholesky.
  Hypothesis Tl : triangular_sound lower_triangular solve_l.
  Hypothesis Tu : triangular_sound upper_triangular solve_u.
  Hypothesis W : mwf X.
  Hypothesis Hk : kernel_is (mcols X) ker k.
  Hypothesis T : gp_train ker mean cholesky solve_l solve_u self X y = (self', Ok tt).
  (** After training every system with the noisy Gram matrix has a solution. *)
  Lemma solvable (d : nat -> R) : exists w, solves k (gp_noise self) X w d.
  Proof.
    destruct (gp_train_inv ker k mean cholesky solve_l solve_u self self' X y W Hk T) as [Ly [L [a [EL [Ea [_ [_ [x [Ex Eu]]]]]]]]].
    destruct (Ch _ _ (noisy_wf _ _ _) (noisy_square k self X) EL) as [WL [RL [CL [TL AL]]]]. rewrite noisy_nrows in *.
    destruct (Tl _ _ _ WL TL Ex) as [Lx [Mx Ux]]. destruct (Tu _ _ _ (transpose_wf L) (transpose_upper L WL TL) Eu) as [La [Ma Ua]]. rewrite transpose_mcols in *.
    set (dl := map d (seq 0 (nrows X))). assert (Ld : length dl = nrows X) by (unfold dl; now rewrite map_length, seq_length).
    rewrite CL in Lx, Ux. rewrite RL in La, Ua.
    destruct (unique_onto L (nrows X) _ x WL RL CL Lx Mx Ux dl Ld) as (z & Lz & Ez).
    destruct (unique_onto (transpose L) (nrows X) x a (transpose_wf L) ltac:(rewrite transpose_nrows; exact CL) ltac:(rewrite transpose_mcols; exact RL) La Ma Ua z Lz) as (w & Lw & Ew).
    exists w. assert (Q : solves k (gp_noise self) X w (fun i => nth i dl 0)).
    { apply solves_mv; auto. split; auto. rewrite <- AL by auto. now rewrite Ew. }
    destruct Q as [Q1 Q2]. split; auto. intros i Hi. rewrite Q2 by auto. unfold dl. now rewrite (nth_map_seq _ _ _ 0).
  Qed.
  (** The noisy Gram matrix is positive semidefinite. *)
  Lemma noisy_psd v : length v = nrows X -> 0 <= sumR (nrows X) (fun i => nth i v 0 * (sumR (nrows X) (fun j => k (pt X i) (pt X j) * nth j v 0) + gp_noise self * nth i v 0)).
  Proof.
    intros Lv. destruct (gp_train_inv ker k mean cholesky solve_l solve_u self self' X y W Hk T) as [Ly [L [a [EL _]]]].
    destruct (Ch _ _ (noisy_wf _ _ _) (noisy_square k self X) EL) as [WL [RL [CL [TL AL]]]]. rewrite noisy_nrows in *.
    rewrite (sumR_ext _ _ (fun i => nth i v 0 * nth i (mat_vec (noisy k (gp_noise self) X) v) 0)) by (intros i Hi; now rewrite noisy_mv).
    rewrite <- (dot_sumR (nrows X)) by (try exact Lv; rewrite mat_vec_length', noisy_nrows; reflexivity).
    rewrite <- AL by auto. rewrite dot_transpose; auto; try lia; [apply dot_ge0|rewrite mat_vec_length', transpose_nrows; auto].
  Qed.
  (** The posterior variance is the smallest mean squared error of a linear predictor. *)
  Definition mse (x : list R) (c : nat -> R) : R :=
    k x x - 2 * sumR (nrows X) (fun j => k x (pt X j) * c j) +
    sumR (nrows X) (fun i => c i * (sumR (nrows X) (fun j => k (pt X i) (pt X j) * c j) + gp_noise self * c i)).
  Lemma mse_ext x c c' : (forall i, (i < nrows X)%nat -> c i = c' i) -> mse x c = mse x c'.
  Proof.
    intros H. unfold mse. f_equal; [f_equal; f_equal; apply sumR_ext; intros; now rewrite H|]. apply sumR_ext. intros i Hi. rewrite H by auto. f_equal. f_equal. apply sumR_ext. intros. now rewrite H.
  Qed.
  Lemma variance_smallest (Sy : forall x x', k x x' = k x' x) Xs out V : mwf Xs -> mcols Xs = mcols X -> gp_get_posterior ker mean solve_l self' Xs = Ok (out, V) ->
    forall i, (i < nrows Xs)%nat -> (exists c, entry V i i = mse (pt Xs i) c) /\ forall c, entry V i i <= mse (pt Xs i) c.
  Proof.
    intros Ws Cs P i Hi. set (x := pt Xs i). destruct (solvable (fun m => k x (pt X m))) as (w & Lw & Sw).
    destruct (gp_posterior ker k mean cholesky solve_l solve_u self self' X y Ch Tl W Hk T Xs out V Ws Cs P) as (_ & _ & _ & _ & Q & _).
    specialize (Q i i w Hi Hi (conj Lw Sw)). fold x in Q. rewrite Q. unfold against.
    assert (Em : forall d, mse x (fun j => nth j w 0 + d j) = k x x - sumR (nrows X) (fun j => k x (pt X j) * nth j w 0) +
       sumR (nrows X) (fun i => d i * (sumR (nrows X) (fun j => k (pt X i) (pt X j) * d j) + gp_noise self * d i))).
    { intros d. unfold mse. set (n := nrows X) in *.
      rewrite (sumR_ext n (fun j => k x (pt X j) * (nth j w 0 + d j)) (fun j => k x (pt X j) * nth j w 0 + k x (pt X j) * d j)) by (intros; ring). rewrite sumR_plus.
      rewrite (sumR_ext n (fun i0 => (nth i0 w 0 + d i0) * _) (fun i0 => nth i0 w 0 * k x (pt X i0) + d i0 * k x (pt X i0) +
        (sumR n (fun j => nth i0 w 0 * k (pt X i0) (pt X j) * d j) + gp_noise self * (nth i0 w 0 * d i0)) + d i0 * (sumR n (fun j => k (pt X i0) (pt X j) * d j) + gp_noise self * d i0))).
      2:{ intros m Hm. rewrite (sumR_ext n (fun j => k (pt X m) (pt X j) * (nth j w 0 + d j)) (fun j => k (pt X m) (pt X j) * nth j w 0 + k (pt X m) (pt X j) * d j)) by (intros; ring).
          rewrite sumR_plus. rewrite (sumR_ext n (fun j => nth m w 0 * k (pt X m) (pt X j) * d j) (fun j => nth m w 0 * (k (pt X m) (pt X j) * d j))) by (intros; ring). rewrite sumR_scal.
          specialize (Sw m Hm). rewrite <- Sw. ring. }
      rewrite !sumR_plus, sumR_scal. rewrite (sumR_exch n n (fun i0 j => nth i0 w 0 * k (pt X i0) (pt X j) * d j)).
      rewrite (sumR_ext n (fun j => sumR n (fun i0 => nth i0 w 0 * k (pt X i0) (pt X j) * d j)) (fun j => d j * k x (pt X j) - gp_noise self * (nth j w 0 * d j))).
      2:{ intros m Hm. specialize (Sw m Hm). rewrite <- Sw. rewrite (sumR_ext n _ (fun i0 => d m * (k (pt X m) (pt X i0) * nth i0 w 0))) by (intros; rewrite (Sy (pt X m)); ring). rewrite sumR_scal. ring. }
      rewrite sumR_minus, sumR_scal. rewrite (sumR_ext n (fun j => k x (pt X j) * d j) (fun i0 => d i0 * k x (pt X i0))) by (intros; ring). rewrite (sumR_ext n (fun i0 => nth i0 w 0 * k x (pt X i0)) (fun j => k x (pt X j) * nth j w 0)) by (intros; ring). ring. }
    split.
    - exists (fun j => nth j w 0 + 0). rewrite Em. rewrite (sumR_ext (nrows X) (fun i0 => 0 * _) (fun _ => 0)) by (intros; ring). rewrite sumR_const. ring.
    - intros c. rewrite (mse_ext x c (fun j => nth j w 0 + nth j (map (fun j => c j - nth j w 0) (seq 0 (nrows X))) 0)).
      + rewrite (Em (fun j => nth j (map (fun j => c j - nth j w 0) (seq 0 (nrows X))) 0)). pose proof (noisy_psd (map (fun j => c j - nth j w 0) (seq 0 (nrows X))) ltac:(now rewrite map_length, seq_length)). lra.
      + intros j Hj. rewrite (nth_map_seq _ _ _ 0) by auto. ring.
  Qed.
End Trained.

Section Two.
  Variables (ker : Kernel R) (k : list R -> list R -> R) (mean : MeanFunc R) (cholesky : matrix R -> option (matrix R))
    (solve_l solve_u : matrix R -> list R -> res (list R)).
  Hypothesis Ch : cholesky_sound cholesky.
  Hypothesis Tl : triangular_sound lower_triangular solve_l.
  Hypothesis Tu : triangular_sound upper_triangular solve_u.
  Hypothesis Sy : forall x x', k x x' = k x' x.
  Lemma sumR_le_more n m f : (n <= m)%nat -> (forall i, (n <= i < m)%nat -> f i = 0) -> sumR m f = sumR n f.
  Proof. intros H Z. induction m as [|m IH]; [replace n with 0%nat by lia; reflexivity|]. destruct (Nat.eq_dec n (S m)) as [->|]; [reflexivity|]. cbn [sumR]. rewrite IH, Z by (try intros; try apply Z; lia). ring. Qed.
  Theorem variance_monotone (s1 s1' s2 s2' : GaussianProcess R) X1 X2 y1 y2 extra : mwf X1 -> mwf X2 -> mcols X2 = mcols X1 -> kernel_is (mcols X1) ker k ->
    mrows X2 = mrows X1 ++ extra -> gp_noise s2 <= gp_noise s1 ->
    gp_train ker mean cholesky solve_l solve_u s1 X1 y1 = (s1', Ok tt) -> gp_train ker mean cholesky solve_l solve_u s2 X2 y2 = (s2', Ok tt) ->
    forall Xs o1 V1 o2 V2, mwf Xs -> mcols Xs = mcols X1 -> gp_get_posterior ker mean solve_l s1' Xs = Ok (o1, V1) -> gp_get_posterior ker mean solve_l s2' Xs = Ok (o2, V2) ->
    forall i, (i < nrows Xs)%nat -> entry V2 i i <= entry V1 i i.
  Proof.
    intros W1 W2 C Hk E N T1 T2 Xs o1 V1 o2 V2 Ws Cs P1 P2 i Hi.
    destruct (variance_smallest ker k mean cholesky solve_l solve_u s1 s1' X1 y1 Ch Tl Tu W1 Hk T1 Sy Xs o1 V1 Ws Cs P1 i Hi) as [(c & Ec) _].
    destruct (variance_smallest ker k mean cholesky solve_l solve_u s2 s2' X2 y2 Ch Tl Tu W2 ltac:(now rewrite C) T2 Sy Xs o2 V2 Ws ltac:(now rewrite C) P2 i Hi) as [_ HL].
    rewrite Ec. set (x := pt Xs i) in *. set (n := nrows X1) in *. eapply Rle_trans; [apply (HL (fun j => if (j <? n)%nat then c j else 0))|].
    assert (Hn : (n <= nrows X2)%nat) by (unfold n, nrows; rewrite E, app_length; lia).
    assert (Pt : forall j, (j < n)%nat -> pt X2 j = pt X1 j) by (intros j Hj; unfold pt; rewrite E, app_nth1; auto).
    unfold mse. fold n. rewrite (sumR_le_more n (nrows X2) (fun j => k x (pt X2 j) * _)); auto.
    2:{ intros j Hj. destruct (Nat.ltb_spec j n); [lia|ring]. }
    rewrite (sumR_ext n (fun j => k x (pt X2 j) * _) (fun j => k x (pt X1 j) * c j)) by (intros j Hj; rewrite Pt by auto; destruct (Nat.ltb_spec j n); [reflexivity|lia]).
    apply Rplus_le_compat_l. rewrite (sumR_le_more n (nrows X2)); auto.
    2:{ intros j Hj. destruct (Nat.ltb_spec j n); [lia|ring]. }
    apply sumR_le. intros j Hj. destruct (Nat.ltb_spec j n); [|lia].
    rewrite (sumR_le_more n (nrows X2)); auto.
    2:{ intros m Hm. destruct (Nat.ltb_spec m n); [lia|ring]. }
    rewrite (sumR_ext n (fun m => k (pt X2 j) (pt X2 m) * _) (fun m => k (pt X1 j) (pt X1 m) * c m)) by (intros m Hm; rewrite !Pt by auto; destruct (Nat.ltb_spec m n); [reflexivity|lia]). nra.
  Qed.
  Theorem gp_linear (s : GaussianProcess R) X y1 y2 y3 a b s1 s2 s3 : mwf X -> kernel_is (mcols X) ker k ->
    gp_train ker mean cholesky solve_l solve_u s X y1 = (s1, Ok tt) -> gp_train ker mean cholesky solve_l solve_u s X y2 = (s2, Ok tt) -> gp_train ker mean cholesky solve_l solve_u s X y3 = (s3, Ok tt) ->
    (forall i, (i < nrows X)%nat -> nth i y3 0 - nth i (mean X) 0 = a * (nth i y1 0 - nth i (mean X) 0) + b * (nth i y2 0 - nth i (mean X) 0)) ->
    forall Xs, mwf Xs -> mcols Xs = mcols X -> length (mean Xs) = nrows Xs -> exists o1 o2 o3,
      gp_predict ker mean s1 Xs = Ok o1 /\ gp_predict ker mean s2 Xs = Ok o2 /\ gp_predict ker mean s3 Xs = Ok o3 /\ length o3 = nrows Xs /\
      forall i, (i < nrows Xs)%nat -> nth i o3 0 - nth i (mean Xs) 0 = a * (nth i o1 0 - nth i (mean Xs) 0) + b * (nth i o2 0 - nth i (mean Xs) 0).
  Proof.
    clear Sy. intros W Hk T1 T2 T3 HY Xs Ws Cs Lm.
    destruct (gp_predict_mean ker k mean cholesky solve_l solve_u s s1 X y1 Ch Tl Tu W Hk T1 Xs Ws Cs Lm) as (a1 & o1 & A1 & P1 & L1 & Q1).
    destruct (gp_predict_mean ker k mean cholesky solve_l solve_u s s2 X y2 Ch Tl Tu W Hk T2 Xs Ws Cs Lm) as (a2 & o2 & A2 & P2 & L2 & Q2).
    destruct (gp_predict_mean ker k mean cholesky solve_l solve_u s s3 X y3 Ch Tl Tu W Hk T3 Xs Ws Cs Lm) as (a3 & o3 & A3 & P3 & L3 & Q3).
    exists o1, o2, o3. repeat (split; [assumption|]). intros i Hi. rewrite Q1, Q2, Q3 by auto.
    destruct (gp_alpha_solves ker k mean cholesky solve_l solve_u s s1 X y1 Ch Tl Tu W Hk T1) as (_ & b1 & B1 & (Lb1 & S1) & _). rewrite A1 in B1. injection B1 as <-.
    destruct (gp_alpha_solves ker k mean cholesky solve_l solve_u s s2 X y2 Ch Tl Tu W Hk T2) as (_ & b2 & B2 & (Lb2 & S2) & _). rewrite A2 in B2. injection B2 as <-.
    destruct (gp_alpha_solves ker k mean cholesky solve_l solve_u s s3 X y3 Ch Tl Tu W Hk T3) as (_ & b3 & B3 & (Lb3 & S3) & U3). rewrite A3 in B3. injection B3 as <-.
    set (c := map (fun j => a * nth j a1 0 + b * nth j a2 0) (seq 0 (nrows X))).
    assert (Ec : forall j, (j < nrows X)%nat -> nth j c 0 = a * nth j a1 0 + b * nth j a2 0) by (intros j Hj; unfold c; now rewrite (nth_map_seq _ _ _ 0)).
    assert (Sc : forall x, sumR (nrows X) (fun j => k x (pt X j) * nth j c 0) = a * sumR (nrows X) (fun j => k x (pt X j) * nth j a1 0) + b * sumR (nrows X) (fun j => k x (pt X j) * nth j a2 0)).
    { intros x. rewrite <- !sumR_scal, <- sumR_plus. apply sumR_ext. intros j Hj. rewrite Ec by auto. ring. }
    assert (E3 : c = a3).
    { apply U3. split; [unfold c; now rewrite map_length, seq_length|]. intros m Hm. rewrite Sc, Ec, HY, <- S1, <- S2 by auto. ring. }
    unfold against. rewrite <- E3, Sc. ring.
  Qed.
End Two.
(** The covariance does not depend on the targets, in any arithmetic. *)
Theorem covariance_targets {F} {N : Num F} ker mean cholesky solve_l solve_u (s s1 s2 : GaussianProcess F) X y1 y2 :
  gp_train ker mean cholesky solve_l solve_u s X y1 = (s1, Ok tt) -> gp_train ker mean cholesky solve_l solve_u s X y2 = (s2, Ok tt) ->
  forall Xs o1 V1 o2 V2, gp_get_posterior ker mean solve_l s1 Xs = Ok (o1, V1) -> gp_get_posterior ker mean solve_l s2 Xs = Ok (o2, V2) -> V1 = V2.
Proof.
  assert (I : forall y s', gp_train ker mean cholesky solve_l solve_u s X y = (s', Ok tt) -> exists km, unwrap (ker_mat ker X X) = Ok km /\ gp_train_mat s' = cholesky (mzip nadd km (scaled_identity (nrows X) (gp_noise s))) /\ gp_train_data s' = Some X).
  { intros y s'. unfold gp_train. destruct (unwrap (ker_mat ker X X)) as [km| |]; cbn [rbind]; try discriminate. destruct (cholesky _) as [L|] eqn:EL; [|discriminate].
    destruct (rvsub y (mean X)) as [d| |]; cbn [rbind]; try discriminate. destruct (unwrap (solve_l L d)) as [x| |]; cbn [rbind]; try discriminate. destruct (unwrap (solve_u _ x)) as [a| |]; cbn [rbind]; try discriminate.
    intros H. apply (f_equal fst) in H. cbn [fst] in H. subst s'. exists km. cbn. rewrite EL. auto. }
  intros T1 T2 Xs o1 V1 o2 V2. destruct (I _ _ T1) as (k1 & K1 & M1 & D1). destruct (I _ _ T2) as (k2 & K2 & M2 & D2). rewrite K1 in K2. injection K2 as <-.
  unfold gp_get_posterior. rewrite M1, M2, D1, D2. destruct (cholesky _) as [L|]; [|discriminate]. destruct (gp_alpha s1) as [a1|]; [|discriminate]. destruct (gp_alpha s2) as [a2|]; [|discriminate].
  destruct (ker_mat ker Xs X) as [tm| |]; cbn [rbind]; try discriminate. destruct (rmat_vec tm a1) as [p1| |]; cbn [rbind]; try discriminate. destruct (rmat_vec tm a2) as [p2| |]; cbn [rbind]; try discriminate.
  destruct (rvadd (mean Xs) p1) as [q1| |]; cbn [rbind]; try discriminate. destruct (rvadd (mean Xs) p2) as [q2| |]; cbn [rbind]; try discriminate.
  destruct (rmap _ _) as [vr| |]; cbn [rbind]; try discriminate. destruct (ker_mat ker Xs Xs) as [kk| |]; cbn [rbind]; try discriminate.
  intros H1 H2. assert (Q : forall A (a b : A), Ok a = Ok b -> a = b) by congruence. apply Q in H1, H2. apply (f_equal snd) in H1, H2. cbn [snd] in H1, H2. congruence.
Qed.
