(** * The kd-tree's box distance underestimates, also in binary64 *)
From Coq Require Import List Arith Lia Bool Permutation Reals Lra.
From Flocq Require Import Core BinarySingleNaN.
From Verif Require Import Base BaseLemmas Num NumF NumOrd B64Lemmas Linalg LinalgR Spec_Calc CalcR Model_KNN Spec_KNN
  Proof_KNearest Proof_Tree.
Import ListNotations.

(** Monotonicity of the operations used by the distances. *)
Class BoxLaws (F : Type) {N : Num F} : Prop := {
  bl_sq : forall p x : F, nfinite p = true -> nfinite x = true ->
    nnan (nmul (nsub p x) (nsub p x)) = false /\ nltb (nmul (nsub p x) (nsub p x)) nzero = false;
  bl_lo : forall p x mi : F, nfinite p = true -> nfinite x = true -> nltb p mi = true -> nltb x mi = false ->
    nnan (nmul (nsub mi p) (nsub mi p)) = false /\ nltb (nmul (nsub mi p) (nsub mi p)) nzero = false /\
    nltb (nmul (nsub p x) (nsub p x)) (nmul (nsub mi p) (nsub mi p)) = false;
  bl_hi : forall p x ma : F, nfinite p = true -> nfinite x = true -> nltb ma p = true -> nltb ma x = false ->
    nnan (nmul (nsub ma p) (nsub ma p)) = false /\ nltb (nmul (nsub ma p) (nsub ma p)) nzero = false /\
    nltb (nmul (nsub p x) (nsub p x)) (nmul (nsub ma p) (nsub ma p)) = false;
  bl_add : forall a b a' b' : F, nnan a = false -> nnan b = false -> nnan a' = false -> nnan b' = false ->
    nltb a nzero = false -> nltb b nzero = false -> nltb a' a = false -> nltb b' b = false ->
    nnan (nadd a b) = false /\ nltb (nadd a b) nzero = false /\ nltb (nadd a' b') (nadd a b) = false;
  bl_add0 : forall a a' b' : F, nnan a = false -> nnan a' = false -> nnan b' = false ->
    nltb a nzero = false -> nltb a' a = false -> nltb b' nzero = false ->
    nnan (nadd a' b') = false /\ nltb (nadd a' b') a = false;
  bl_sqrt : forall a b : F, nnan a = false -> nnan b = false -> nltb a nzero = false -> nltb b a = false ->
    nnan (nsqrt a) = false /\ nltb (nsqrt b) (nsqrt a) = false;
  bl_zero : nnan (nzero : F) = false
}.

Global Instance BoxLawsR : BoxLaws R.
Proof.
  split; cbn [nnan nfinite NumR nadd nsub nmul nsqrt nzero]; intros;
    repeat match goal with H : nltb _ _ = true |- _ => apply nltb_R in H | H : nltb _ _ = false |- _ => apply nltb_R_false in H end;
    repeat match goal with |- _ /\ _ => split end; auto; apply nltb_R_false; cbn [nzero NumR] in *; try apply sqrt_le_1_alt; try apply Rle_0_sqr; try nra.
Qed.

Local Open Scope R_scope.
Lemma fr_opp v : fr (- v) = - fr v.
Proof.
  unfold fr. replace (rnd64 (- v)) with (- rnd64 v) by (unfold rnd64; now rewrite round_NE_opp).
  generalize top64_pos. intros. unfold Rmax, Rmin. repeat destruct Rle_dec; lra.
Qed.

Global Instance BoxLawsB64 : BoxLaws B64.
Proof.
  assert (Z : phi (B754_zero false) = 0) by reflexivity.
  assert (SQ : forall p x : B64, is_finite p = true -> is_finite x = true ->
    is_nan (nmul (nsub p x) (nsub p x)) = false /\ phi (nmul (nsub p x) (nsub p x)) = fr (fr (B2R p - B2R x) * fr (B2R p - B2R x))).
  { intros p x Fp Fx. destruct (sub_rounds p x Fp Fx) as [S1 S2]. destruct (sq_rounds _ S1) as [Q1 Q2]. now rewrite S2 in Q2. }
  assert (BD : forall (p q : B64), is_finite p = true -> phi q <= phi p -> - top64 < phi q -> is_nan q = false -> is_finite q = true).
  { intros p q Fp H1 H2 Nq. destruct q as [s|s| |s m e b]; auto. cbn [phi] in *. rewrite phi_finite in H1; auto.
    pose proof (abs_B2R_lt_emax 53 1024 p) as Q. fold top64 in Q. apply Rabs_def2 in Q. destruct s; lra. }
  assert (FB : forall p : B64, is_finite p = true -> - top64 < phi p < top64).
  { intros p Fp. rewrite phi_finite; auto. pose proof (abs_B2R_lt_emax 53 1024 p) as Q. fold top64 in Q. apply Rabs_def2 in Q. lra. }
  split; cbn [nnan nfinite nltb nzero NumB64].
  - intros p x Fp Fx. destruct (SQ p x Fp Fx) as [Q1 Q2]. split; auto. apply phi_ltb_false; auto. rewrite Z, Q2. apply fr_nonneg. nra.
  - intros p x mi Fp Fx H1 H2. destruct (b64_ltb_nan _ _ H1) as [_ Nm].
    apply phi_ltb in H1; auto using finite_nan. apply phi_ltb_false in H2; auto using finite_nan.
    assert (Fm : is_finite mi = true) by (apply (BD x); auto; pose proof (FB p Fp); lra).
    destruct (SQ mi p Fm Fp) as [Q1 Q2]. destruct (SQ p x Fp Fx) as [Q3 Q4].
    split; auto. split; apply phi_ltb_false; auto; rewrite ?Z, ?Q2, ?Q4.
    + apply fr_nonneg. nra.
    + rewrite (phi_finite p) in * by auto. rewrite (phi_finite x) in * by auto. rewrite (phi_finite mi) in * by auto. apply fr_le.
      replace (B2R p - B2R x) with (- (B2R x - B2R p)) by ring. rewrite fr_opp.
      assert (0 <= fr (B2R mi - B2R p)) by (apply fr_nonneg; lra).
      assert (fr (B2R mi - B2R p) <= fr (B2R x - B2R p)) by (apply fr_le; lra). nra.
  - intros p x ma Fp Fx H1 H2. destruct (b64_ltb_nan _ _ H1) as [Nm _].
    apply phi_ltb in H1; auto using finite_nan. apply phi_ltb_false in H2; auto using finite_nan.
    assert (Fm : is_finite ma = true) by (apply (BD p); auto; pose proof (FB x Fx); lra).
    destruct (SQ ma p Fm Fp) as [Q1 Q2]. destruct (SQ p x Fp Fx) as [Q3 Q4].
    split; auto. split; apply phi_ltb_false; auto; rewrite ?Z, ?Q2, ?Q4.
    + apply fr_nonneg. nra.
    + rewrite (phi_finite p) in * by auto. rewrite (phi_finite x) in * by auto. rewrite (phi_finite ma) in * by auto. apply fr_le.
      replace (B2R ma - B2R p) with (- (B2R p - B2R ma)) by ring. rewrite fr_opp.
      assert (0 <= fr (B2R p - B2R ma)) by (apply fr_nonneg; lra).
      assert (fr (B2R p - B2R ma) <= fr (B2R p - B2R x)) by (apply fr_le; lra). nra.
  - intros a b a' b' Na Nb Na' Nb' H1 H2 H3 H4.
    apply phi_ltb_false in H1, H2, H3, H4; auto. rewrite Z in H1, H2.
    destruct (add_pos_rounds a b) as [Q1 Q2]; auto. destruct (add_pos_rounds a' b') as [Q3 Q4]; auto; try lra.
    split; auto. split; apply phi_ltb_false; auto; rewrite ?Z, ?Q2, ?Q4.
    + apply fr_nonneg. lra.
    + apply fr_le. lra.
  - intros a a' b' Na Na' Nb' H1 H3 H4.
    apply phi_ltb_false in H1, H3, H4; auto. rewrite Z in H1, H4.
    destruct (add_pos_rounds a' b') as [Q3 Q4]; auto; try lra. split; auto. apply phi_ltb_false; auto.
    rewrite Q4, <- (fr_phi a); auto. apply fr_le. lra.
  - intros a b Na Nb H1 H2. apply phi_ltb_false in H1, H2; auto. rewrite Z in H1.
    destruct (sqrt_pos a) as [Q1 _]; auto. destruct (sqrt_pos b) as [Q2 _]; auto; try lra. split; auto.
    apply phi_ltb_false; auto. now apply sqrt_mono.
  - reflexivity.
Qed.

Section KD.
  Context {F : Type} {N : Num F} {O : NumOrd F} {BL : BoxLaws F}.

  Definition fin_list (l : list F) : Prop := forall x, In x l -> nfinite x = true.

  Lemma sq_sum_ok p : forall x acc, fin_list p -> fin_list x -> nnan acc = false -> nltb acc nzero = false ->
    let s := fold_left nadd (map2 (fun x y => nmul (nsub x y) (nsub x y)) p x) acc in
    nnan s = false /\ nltb s nzero = false.
  Proof.
    induction p as [|a p IH]; intros [|b x] acc Fp Fx Na Pa; cbn; auto.
    destruct (bl_sq a b) as [Q1 Q2]; [apply Fp; now left|apply Fx; now left|].
    destruct (bl_add acc (nmul (nsub a b) (nsub a b)) acc (nmul (nsub a b) (nsub a b))) as (A1 & A2 & _); auto; try apply no_irr.
    apply IH; auto; intros z Hz; [apply Fp|apply Fx]; now right.
  Qed.

  Lemma box_sum_lower p : forall x mn mx d acc, fin_list p -> fin_list x ->
    length x = length p -> length mn = length p -> length mx = length p ->
    (forall j, (j < length p)%nat -> nltb (nth j x nzero) (nth j mn nzero) = false /\ nltb (nth j mx nzero) (nth j x nzero) = false) ->
    nnan d = false -> nnan acc = false -> nltb d nzero = false -> nltb acc d = false ->
    let s := fold_left nadd (map2 (fun x y => nmul (nsub x y) (nsub x y)) p x) acc in
    let b := box_sum p mn mx d in
    nnan b = false /\ nltb b nzero = false /\ nltb s b = false.
  Proof.
    induction p as [|a p IH]; intros x mn mx d acc Fp Fx Lx Ln Lm Bx Nd Na Pd Le; cbn; auto.
    destruct x as [|b x]; [discriminate|]. destruct mn as [|mi mn]; [discriminate|]. destruct mx as [|ma mx]; [discriminate|].
    cbn [map2 fold_left box_sum].
    assert (Fa : nfinite a = true) by (apply Fp; now left). assert (Fb : nfinite b = true) by (apply Fx; now left).
    destruct (Bx 0%nat) as [B1 B2]; [cbn; lia|]. cbn in B1, B2.
    destruct (bl_sq a b) as [Q1 Q2]; auto.
    assert (Pacc : nltb acc nzero = false) by (now apply (no_ntrans _ d)).
    assert (Bx' : forall j, (j < length p)%nat -> nltb (nth j x nzero) (nth j mn nzero) = false /\ nltb (nth j mx nzero) (nth j x nzero) = false).
    { intros j Hj. apply (Bx (S j)). cbn. lia. }
    assert (Fp' : fin_list p) by (intros z Hz; apply Fp; now right).
    assert (Fx' : fin_list x) by (intros z Hz; apply Fx; now right).
    destruct (nltb a mi) eqn:C1; [|destruct (nltb ma a) eqn:C2].
    - destruct (bl_lo a b mi) as (R1 & R2 & R3); auto.
      destruct (bl_add d (nmul (nsub mi a) (nsub mi a)) acc (nmul (nsub a b) (nsub a b))) as (A1 & A2 & A3); auto.
      destruct (bl_add acc (nmul (nsub a b) (nsub a b)) acc (nmul (nsub a b) (nsub a b))) as (A4 & A5 & _); auto; try apply no_irr.
    - destruct (bl_hi a b ma) as (R1 & R2 & R3); auto.
      destruct (bl_add d (nmul (nsub ma a) (nsub ma a)) acc (nmul (nsub a b) (nsub a b))) as (A1 & A2 & A3); auto.
      destruct (bl_add acc (nmul (nsub a b) (nsub a b)) acc (nmul (nsub a b) (nsub a b))) as (A4 & A5 & _); auto; try apply no_irr.
    - destruct (bl_add0 d acc (nmul (nsub a b) (nsub a b))) as (A1 & A2); auto.
  Qed.

  Definition fin_data (data : matrix F) : Prop := forall i, (i < nrows data)%nat -> fin_list (nth i (mrows data) []).

  Lemma dist_nonan data point i : fin_data data -> fin_list point -> (i < nrows data)%nat -> nnan (rowdist data point i) = false.
  Proof.
    intros Fd Fp Hi. unfold rowdist, dist, vsum.
    destruct (sq_sum_ok point (nth i (mrows data) []) nzero Fp (Fd i Hi) bl_zero (no_irr _)) as [Q1 Q2].
    apply (proj1 (bl_sqrt _ _ Q1 Q1 Q2 (no_irr _))).
  Qed.

  Lemma kd_geom_lower data point : mwf data -> fin_data data -> fin_list point -> length point = mcols data ->
    geom_lower kd_split data point.
  Proof.
    intros W Fd Fp Lp remains mn mx g E NE L1 L2 Bx. cbn in E. inversion E; subst g; clear E.
    assert (K : forall i, In i remains -> nnan (box_sum point mn mx nzero) = false /\ nltb (box_sum point mn mx nzero) nzero = false /\
       nltb (vsum (map2 (fun x y => nmul (nsub x y) (nsub x y)) point (nth i (mrows data) []))) (box_sum point mn mx nzero) = false).
    { intros i Hi. destruct (Bx i Hi) as (B1 & B2 & B3).
      apply box_sum_lower; auto; try apply no_irr; try apply bl_zero; try congruence.
      - rewrite row_length; auto.
      - intros j Hj. rewrite Lp in Hj. split; [now apply B2|now apply B3]. }
    cbn [bs_dist kd_split fst snd]. split.
    - destruct remains as [|i rem]; [easy|]. destruct (K i (or_introl eq_refl)) as (K1 & K2 & _).
      apply (proj1 (bl_sqrt _ _ K1 K1 K2 (no_irr _))).
    - intros i Hi. destruct (K i Hi) as (K1 & K2 & K3). unfold rowdist, dist.
      destruct (sq_sum_ok point (nth i (mrows data) []) nzero Fp (Fd i (proj1 (Bx i Hi))) bl_zero (no_irr _)) as [Q1 Q2].
      apply bl_sqrt; auto.
  Qed.
End KD.
