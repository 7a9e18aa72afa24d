From Coq Require Import List Arith Reals Lra Lia Bool.
From Verif Require Import Base BaseLemmas Num NumX Linalg LinalgR Spec_Calc CalcR Model_Transforms Spec_Transforms
  Proof_MinMax Proof_Standardize Spec_Units.
Import ListNotations.
Local Open Scope R_scope.

Lemma mat_entries (m m' : matrix R) : mwf m -> mwf m' -> nrows m = nrows m' -> mcols m = mcols m' ->
  (forall i j, (i < nrows m)%nat -> (j < mcols m)%nat -> entry m i j = entry m' i j) -> m = m'.
Proof.
  intros W W' Hn Hc H. destruct m as [rs c], m' as [rs' c']. cbn [mcols mrows nrows] in *. subst c'. f_equal.
  apply (nth_ext _ _ [] []); [exact Hn|]. intros i Hi.
  pose proof (wf_row (Mat rs c) i W Hi) as L. assert (Hi' : (i < nrows (Mat rs' c))%nat) by (unfold nrows in *; cbn [mrows] in *; lia).
  pose proof (wf_row (Mat rs' c) i W' Hi') as L'. cbn [mrows mcols] in *.
  apply (nth_ext _ _ 0 0); [lia|]. intros j Hj. apply (H i j); auto; lia.
Qed.

Section MinMaxUnits.
  Variables (a b : nat -> R).
  Hypothesis Apos : forall j, 0 < a j.

  Lemma rescaled_min m m' j lo : rescaled a b m m' -> (j < mcols m)%nat -> is_col_min m j lo -> is_col_min m' j (a j * lo + b j).
  Proof.
    intros (W & W' & Hn & Hc & H) Hj [(i & Hi & E) Hm]. split.
    - exists i. split; [lia|]. rewrite H by auto. rewrite E. auto.
    - intros k Hk. rewrite Hn in Hk. rewrite H by auto. pose proof (Hm k Hk). pose proof (Apos j).
      apply Rplus_le_compat_r, Rmult_le_compat_l; lra.
  Qed.
  Lemma rescaled_max m m' j hi : rescaled a b m m' -> (j < mcols m)%nat -> is_col_max m j hi -> is_col_max m' j (a j * hi + b j).
  Proof.
    intros (W & W' & Hn & Hc & H) Hj [(i & Hi & E) Hm]. split.
    - exists i. split; [lia|]. rewrite H by auto. rewrite E. auto.
    - intros k Hk. rewrite Hn in Hk. rewrite H by auto. pose proof (Hm k Hk). pose proof (Apos j).
      apply Rplus_le_compat_r, Rmult_le_compat_l; lra.
  Qed.
  Lemma rescaled_varies m m' j : rescaled a b m m' -> (j < mcols m)%nat -> varies m j -> varies m' j.
  Proof.
    intros (W & W' & Hn & Hc & H) Hj (i & i' & Hi & Hi' & Hne). exists i, i'. rewrite Hn. repeat split; auto.
    rewrite !H by auto. pose proof (Apos j). intros E. apply Hne. apply Rmult_eq_reg_l with (a j); lra.
  Qed.

  Lemma mm_rescaled m m' j : rescaled a b m m' -> in_f64_range m -> in_f64_range m' -> (0 < nrows m)%nat -> (j < mcols m)%nat ->
    nth j (mm_of m') (0, 0) = (a j * fst (nth j (mm_of m) (0, 0)) + b j, a j * snd (nth j (mm_of m) (0, 0)) + b j).
  Proof.
    intros Hr R1 R2 Hn Hj. pose proof Hr as (W & W' & Hn' & Hc & _).
    destruct (mm_of_extremes m j) as [L1 L2]; auto. destruct (mm_of_extremes m' j) as [M1 M2]; auto; try lia.
    rewrite (surjective_pairing (nth j (mm_of m') (0, 0))). f_equal.
    - apply (is_min_unique m' j); auto. apply (rescaled_min m); auto.
    - apply (is_max_unique m' j); auto. apply (rescaled_max m); auto.
  Qed.

  Lemma minmax_units smin smax m m' n n' :
    rescaled a b m m' -> in_f64_range m -> in_f64_range m' -> (0 < nrows m)%nat -> (forall j, (j < mcols m)%nat -> varies m j) ->
    rescaled a b n n' -> mcols n = mcols m ->
    exists sc sc' out, minmax_fit (Fin smin) (Fin smax) (inj m) = Ok sc /\ minmax_fit (Fin smin) (Fin smax) (inj m') = Ok sc' /\
      minmax_transform sc (inj n) = Ok out /\ minmax_transform sc' (inj n') = Ok out.
  Proof.
    intros Hr R1 R2 Hn Hv Hs Hc. pose proof Hr as (W & W' & Hn' & Hc' & _). pose proof Hs as (V & V' & Hm' & Hd & He).
    assert (G : Forall (fun p => fst p < snd p) (mm_of m)) by (apply good_mm; auto).
    assert (G' : Forall (fun p => fst p < snd p) (mm_of m')).
    { apply good_mm; auto; [lia|]. intros j Hj. apply (rescaled_varies m); auto; [lia|apply Hv; lia]. }
    assert (Q : forall l, Forall (fun p : R * R => fst p < snd p) l -> Forall (fun p : R * R => snd p - fst p <> 0) l).
    { intros l. apply Forall_impl. intros p; lra. }
    eexists _, _, _. split; [apply fit_ok; auto|]. split; [apply fit_ok; auto|].
    split; [apply transform_fitted; auto; rewrite mm_of_length; auto|].
    rewrite transform_fitted; auto; [|rewrite mm_of_length; auto; lia]. do 2 f_equal. symmetry.
    pose proof (mm_of_length m W) as L. pose proof (mm_of_length m' W') as L'.
    assert (Len : forall n (mm : list (R * R)), mwf n -> length mm = mcols n -> mwf (Mat (map (fun row => map2 (fun x p => x * sfac smin smax p + (smax - snd p * sfac smin smax p)) row mm) (mrows n)) (mcols n))).
    { intros n0 mm W0 Hl. unfold mwf; cbn [mrows mcols]. rewrite Forall_map. eapply Forall_impl; [|exact W0].
      intros r Hr0; cbv beta in *. rewrite map2_length. lia. }
    apply mat_entries.
    - apply Len; auto; lia.
    - apply Len; auto; lia.
    - unfold nrows in *; cbn [mrows]. rewrite !map_length. auto.
    - cbn; auto.
    - unfold nrows, entry; cbn [mrows mcols]. rewrite map_length. intros i j Hi Hj.
      rewrite !nth_map_row by (unfold nrows in *; lia).
      pose proof (wf_row n i V Hi) as Li. assert (Hi' : (i < nrows n')%nat) by (unfold nrows in *; lia). pose proof (wf_row n' i V' Hi') as Li'.
      rewrite !(map2_nth _ _ _ j 0 (0, 0)) by lia.
      rewrite (mm_rescaled m m' j) by (auto; lia). cbn [fst snd].
      change (nth j (nth i (mrows n') []) 0) with (entry n' i j). rewrite He by auto.
      change (nth j (nth i (mrows n) []) 0) with (entry n i j).
      assert (Gj : fst (nth j (mm_of m) (0, 0)) < snd (nth j (mm_of m) (0, 0))).
      { apply (proj1 (Forall_forall _ _) G). apply nth_In. lia. }
      unfold sfac; cbn [fst snd]. set (lo := fst _) in *. set (hi := snd _) in *. pose proof (Apos j).
      assert (0 < a j * (hi - lo)) by (apply Rmult_lt_0_compat; lra). field. split; lra.
  Qed.

  Lemma cmean_rescaled m m' j : rescaled a b m m' -> (0 < nrows m)%nat -> (j < mcols m)%nat -> cmean m' j = a j * cmean m j + b j.
  Proof.
    intros (W & W' & Hn & Hc & H) Hp Hj. unfold cmean. rewrite Hn.
    rewrite (sumR_ext _ _ (fun i => a j * entry m i j + b j)) by (intros i Hi; apply H; auto).
    rewrite sumR_plus, sumR_scal, sumR_const. field. apply not_0_INR. lia.
  Qed.
  Lemma csvar_rescaled m m' j : rescaled a b m m' -> (2 <= nrows m)%nat -> (j < mcols m)%nat -> csvar m' j = (a j)^2 * csvar m j.
  Proof.
    intros Hr Hp Hj. pose proof Hr as (W & W' & Hn & Hc & H). unfold csvar. rewrite (cmean_rescaled m m') by (auto; lia). rewrite Hn.
    rewrite (sumR_ext _ _ (fun i => (a j)^2 * (entry m i j - cmean m j)^2)) by (intros i Hi; cbv beta; rewrite H by auto; ring).
    rewrite sumR_scal. field. assert (2 <= INR (nrows m)) by (apply (le_INR 2); auto). lra.
  Qed.

  Lemma standardizer_units smean sstd m m' n n' :
    rescaled a b m m' -> (2 <= nrows m)%nat -> (forall j, (j < mcols m)%nat -> varies m j) ->
    rescaled a b n n' -> mcols n = mcols m ->
    exists st st' out, standardizer_fit (Fin smean) (Fin sstd) (inj m) = Ok st /\ standardizer_fit (Fin smean) (Fin sstd) (inj m') = Ok st' /\
      standardizer_transform st (inj n) = Ok out /\ standardizer_transform st' (inj n') = Ok out.
  Proof.
    intros Hr Hn Hv Hs Hc. pose proof Hr as (W & W' & Hn' & Hc' & _). pose proof Hs as (V & V' & Hm' & Hd & He).
    assert (P : forall j, (j < mcols m)%nat -> 0 < csvar m j) by (intros; apply csvar_pos; auto).
    eexists _, _, _. split; [apply std_fit_inj; auto|]. split; [apply std_fit_inj; lia|].
    split; [apply std_transform_inj; auto|].
    rewrite std_transform_inj; [|intros j Hj; rewrite (csvar_rescaled m m') by (auto; lia); apply Rmult_lt_0_compat; [apply pow_lt, Apos|apply P; lia]|lia].
    do 2 f_equal. symmetry.
    assert (Len : forall m0 n0, mwf n0 -> mcols n0 = mcols m0 -> mwf (Mat (map (std_row smean sstd m0) (mrows n0)) (mcols n0))).
    { intros m0 n0 W0 E0. unfold mwf; cbn [mrows mcols]. rewrite Forall_map. eapply Forall_impl; [|exact W0].
      intros r Hr0; cbv beta in *. unfold std_row. rewrite map2_length, seq_length. lia. }
    apply mat_entries.
    - apply Len; auto; lia.
    - apply Len; auto; lia.
    - unfold nrows in *; cbn [mrows]. rewrite !map_length. auto.
    - cbn; auto.
    - unfold nrows, entry; cbn [mrows mcols]. rewrite map_length. intros i j Hi Hj.
      rewrite !nth_map_row by (unfold nrows in *; lia).
      pose proof (wf_row n i V Hi) as Li. assert (Hi' : (i < nrows n')%nat) by (unfold nrows in *; lia). pose proof (wf_row n' i V' Hi') as Li'.
      unfold std_row. rewrite !(map2_nth _ _ _ j 0 O) by (rewrite ?seq_length; lia). rewrite !seq_nth by lia. cbn [plus].
      rewrite (csvar_rescaled m m'), (cmean_rescaled m m') by (auto; lia).
      change (nth j (nth i (mrows n') []) 0) with (entry n' i j). rewrite He by auto.
      change (nth j (nth i (mrows n) []) 0) with (entry n i j).
      rewrite sqrt_mult_alt by (apply pow2_ge_0). rewrite sqrt_pow2 by (pose proof (Apos j); lra).
      assert (0 < sqrt (csvar m j)) by (apply sqrt_lt_R0, P; lia). pose proof (Apos j). field. lra.
  Qed.
End MinMaxUnits.

Lemma minmax_idempotent smin smax m : smin < smax -> - f64_max_R <= smin -> smax <= f64_max_R ->
  mwf m -> in_f64_range m -> (0 < nrows m)%nat -> (forall j, (j < mcols m)%nat -> varies m j) ->
  exists sc sc' out, minmax_fit (Fin smin) (Fin smax) (inj m) = Ok sc /\ minmax_transform sc (inj m) = Ok out /\
    minmax_fit (Fin smin) (Fin smax) out = Ok sc' /\ minmax_transform sc' out = Ok out.
Proof.
  intros Hs A B W Hr Hn Hv. destruct (minmax_range smin smax m) as (sc & m' & E1 & E2 & W' & Hn' & Hc' & H); auto.
  assert (K : forall j, (j < mcols m)%nat -> is_col_min m' j smin /\ is_col_max m' j smax).
  { intros j Hj. destruct (mm_of_extremes m j W Hr Hn Hj) as [L M]. destruct (H j _ _ Hj L M) as (P & Q & _). auto. }
  assert (R' : in_f64_range m').
  { intros i j Hi Hj. rewrite Hc' in Hj. destruct (K j Hj) as [[_ P] [_ Q]]. specialize (P i Hi). specialize (Q i Hi). lra. }
  assert (V' : forall j, (j < mcols m')%nat -> varies m' j).
  { intros j Hj. rewrite Hc' in Hj. destruct (K j Hj) as [P Q]. apply (varies_iff m' j smin smax); auto. }
  destruct (minmax_range smin smax m') as (sc' & m'' & F1 & F2 & W'' & Hn'' & Hc'' & H'); auto; [lia|].
  exists sc, sc', (inj m'). repeat split; auto. rewrite F2. do 2 f_equal. apply mat_entries; auto.
  intros i j Hi Hj. rewrite Hn'' in Hi. rewrite Hc'' in Hj. destruct (K j) as [P Q]; [lia|].
  destruct (H' j _ _ Hj P Q) as (_ & _ & H''). destruct (H'' i Hi) as [-> _]. field. lra.
Qed.

Lemma standardizer_idempotent smean sstd m : 0 < sstd -> mwf m -> (2 <= nrows m)%nat -> (forall j, (j < mcols m)%nat -> varies m j) ->
  exists st st' out, standardizer_fit (Fin smean) (Fin sstd) (inj m) = Ok st /\ standardizer_transform st (inj m) = Ok out /\
    standardizer_fit (Fin smean) (Fin sstd) out = Ok st' /\ standardizer_transform st' out = Ok out.
Proof.
  intros Hs W Hn Hv. destruct (standardize_spec smean sstd m) as (st & m' & E1 & E2 & W' & Hn' & Hc' & H); auto.
  assert (V' : forall j, (j < mcols m')%nat -> varies m' j).
  { intros j Hj. destruct (H j) as (_ & _ & Hx); [lia|]. destruct (Hv j) as (i & i' & Hi & Hi' & Hne); [lia|].
    exists i, i'. rewrite Hn'. repeat split; auto. rewrite !Hx by auto. intros E. apply Hne.
    assert (0 < sqrt (csvar m j)) by (apply sqrt_lt_R0, csvar_pos; auto; apply Hv; lia).
    assert (E' : (entry m i j - cmean m j) * sstd / sqrt (csvar m j) = (entry m i' j - cmean m j) * sstd / sqrt (csvar m j)) by lra.
    unfold Rdiv in E'. apply Rmult_eq_reg_r in E'; [|apply Rinv_neq_0_compat; lra]. apply Rmult_eq_reg_r in E'; lra. }
  destruct (standardize_spec smean sstd m') as (st' & m'' & F1 & F2 & W'' & Hn'' & Hc'' & H'); auto; [lia|].
  exists st, st', (inj m'). repeat split; auto. rewrite F2. do 2 f_equal. apply mat_entries; auto.
  intros i j Hi Hj. rewrite Hn'' in Hi. rewrite Hc'' in Hj. destruct (H' j Hj) as (_ & _ & H''). rewrite H'' by auto.
  destruct (H j) as (-> & -> & _); [lia|]. rewrite sqrt_pow2 by lra. field. lra.
Qed.

Lemma row_len_scale c r : 0 <= c -> row_len (map (Rmult c) r) = c * row_len r.
Proof.
  intros Hc. unfold row_len. rewrite map_length.
  rewrite (sumR_ext _ _ (fun i => c ^ 2 * nth i r 0 ^ 2)).
  - rewrite sumR_scal, sqrt_mult_alt by (apply pow2_ge_0). rewrite sqrt_pow2 by auto. auto.
  - intros i Hi. rewrite (nth_map _ _ _ _ 0) by auto. ring.
Qed.

Lemma normalizer_units c m m' : (forall i, 0 < c i) -> rows_rescaled c m m' -> normalize norm2 (inj m') = normalize norm2 (inj m).
Proof.
  intros Hc (Hn & Hcol & H). rewrite !normalize_fin. do 3 f_equal; auto.
  apply (nth_ext _ _ [] []); [rewrite !map_length; auto|]. intros i Hi. rewrite map_length in Hi.
  rewrite !nth_map_row by (unfold nrows in *; lia). rewrite H by (unfold nrows in *; lia).
  unfold norm_row. rewrite row_len_scale by (pose proof (Hc i); lra). pose proof (Hc i) as C.
  set (r := nth i (mrows m) []). destruct (Req_EM_T (row_len r) 0) as [E|E].
  - rewrite E, Rmult_0_r. destruct (Req_EM_T 0 0); [|contradiction].
    assert (Z : Forall (fun x => x = 0) r).
    { rewrite row_len_dot in E. apply dot_self_0. apply sqrt_eq_0; auto. apply dot_ge0. }
    clear -Z. induction Z; cbn; auto. subst. f_equal; auto. ring.
  - destruct (Req_EM_T (c i * row_len r) 0) as [E'|_]; [apply Rmult_integral in E'; lra|].
    rewrite map_map. apply map_ext. intros x. field. lra.
Qed.
