From Coq Require Import List Arith Reals Lra Lia Bool.
From Verif Require Import Base BaseLemmas Num NumX Linalg LinalgR Spec_Calc CalcR Model_Transforms Spec_Transforms Proof_MinMax.
Import ListNotations.
Local Open Scope R_scope.

Lemma xvsum_fin_acc l a : fold_left xadd (map Fin l) (Fin a) = Fin (a + rsum l).
Proof. revert a; induction l as [|x l IH]; intros a; simpl; [f_equal; lra|]. rewrite IH. f_equal. lra. Qed.
Lemma xvsum_fin l : vsum (map Fin l) = Fin (rsum l).
Proof. unfold vsum. change (@nadd X NumXI) with xadd. change (@nzero X NumXI) with (Fin 0). rewrite xvsum_fin_acc. f_equal. lra. Qed.
Lemma col_inj m j : col (inj m) j = map Fin (map (fun r => nth j r 0) (mrows m)).
Proof.
  unfold col, inj; simpl. rewrite !map_map. apply map_ext. intros r.
  change (Fin 0) with (Fin 0). rewrite (map_nth Fin). reflexivity.
Qed.
Lemma nrows_inj m : nrows (inj m) = nrows m.
Proof. unfold nrows, inj; simpl. apply map_length. Qed.

Lemma rsum_col (f : R -> R) m j :
  rsum (map f (map (fun r => nth j r 0) (mrows m))) = sumR (nrows m) (fun i => f (entry m i j)).
Proof.
  rewrite rsum_nth, !map_length. apply sumR_ext. intros i Hi.
  rewrite (nth_indep _ 0 (f 0)) by (rewrite !map_length; auto). rewrite map_nth. f_equal.
  unfold entry. rewrite (nth_indep _ 0 (nth j [] 0)) by (rewrite map_length; auto).
  rewrite (map_nth (fun r => nth j r 0)). auto.
Qed.

Lemma col_mean_inj m : (0 < nrows m)%nat -> col_mean (inj m) = map (fun j => Fin (cmean m j)) (seq 0 (mcols m)).
Proof.
  intros Hn. unfold col_mean. cbn [mcols inj]. apply map_ext. intros j. rewrite col_inj, xvsum_fin, nrows_inj.
  cbn. destruct (Req_EM_T (INR (nrows m)) 0) as [E|_]; [exfalso; apply (not_0_INR (nrows m)); auto; lia|].
  f_equal. unfold cmean. f_equal. rewrite <- (map_id (map _ _)). apply (rsum_col (fun x => x)).
Qed.

Lemma col_var_inj m : (2 <= nrows m)%nat -> col_var (inj m) = map (fun j => Fin (csvar m j)) (seq 0 (mcols m)).
Proof.
  intros Hn. unfold col_var. cbn [mcols inj]. apply map_ext. intros j. rewrite col_inj, xvsum_fin, nrows_inj.
  cbv zeta.
  assert (Emu : ndiv (Fin (rsum (map (fun r => nth j r 0) (mrows m)))) (nofnat (nrows m)) = Fin (cmean m j)).
  { cbn. destruct (Req_EM_T (INR (nrows m)) 0) as [E|_]; [exfalso; apply (not_0_INR (nrows m)); auto; lia|].
    f_equal. unfold cmean. f_equal. rewrite <- (map_id (map _ _)). apply (rsum_col (fun x => x)). }
  rewrite Emu.
  replace (map _ (map Fin _)) with (map Fin (map (fun x => (x - cmean m j) * (x - cmean m j)) (map (fun r => nth j r 0) (mrows m)))).
  2:{ rewrite !map_map. apply map_ext. intros r. reflexivity. }
  rewrite xvsum_fin. cbn.
  assert (Hd : INR (nrows m - 1) = INR (nrows m) - 1) by (rewrite minus_INR by lia; reflexivity).
  assert (Hd0 : 0 < INR (nrows m - 1)) by (apply lt_0_INR; lia).
  destruct (Req_EM_T (INR (nrows m - 1)) 0) as [E|_]; [lra|]. f_equal. unfold csvar. rewrite Hd. f_equal.
  rewrite rsum_col. apply sumR_ext. intros. ring.
Qed.

Lemma seq_nth_map {A} (f : nat -> A) n j d : (j < n)%nat -> nth j (map f (seq 0 n)) d = f j.
Proof.
  intros H. rewrite (nth_indep _ d (f O)) by (rewrite map_length, seq_length; auto).
  rewrite map_nth, seq_nth by auto. auto.
Qed.

Lemma csvar_pos m j : (2 <= nrows m)%nat -> varies m j -> 0 < csvar m j.
Proof.
  intros Hn (i & i' & Hi & Hi' & Hne). unfold csvar.
  assert (2 <= INR (nrows m)) by (apply (le_INR 2); auto).
  apply Rdiv_lt_0_compat; [|lra].
  assert (K : 0 <= sumR (nrows m) (fun i => (entry m i j - cmean m j) ^ 2)) by (apply sumR_ge0; intros; apply pow2_ge_0).
  destruct (Rle_lt_or_eq_dec _ _ K) as [|E]; auto. exfalso.
  assert (Z : forall k, (k < nrows m)%nat -> entry m k j = cmean m j).
  { intros k Hk.
    assert (S : (entry m k j - cmean m j) ^ 2 <= sumR (nrows m) (fun i => (entry m i j - cmean m j) ^ 2)).
    { apply (sumR_ge_term (nrows m) (fun i => (entry m i j - cmean m j) ^ 2)); auto. intros; apply pow2_ge_0. }
    rewrite <- E in S. pose proof (pow2_ge_0 (entry m k j - cmean m j)). nra. }
  apply Hne. rewrite !Z; auto.
Qed.

(** Variance of a constant column. *)
Lemma csvar_const m j : (2 <= nrows m)%nat -> ~ varies m j -> csvar m j = 0 /\ forall i, (i < nrows m)%nat -> entry m i j = cmean m j.
Proof.
  intros Hn Hv.
  assert (C : forall i, (i < nrows m)%nat -> entry m i j = entry m 0 j).
  { intros i Hi. destruct (Req_EM_T (entry m i j) (entry m 0 j)); auto. exfalso. apply Hv. exists i, 0%nat. repeat split; auto. lia. }
  assert (2 <= INR (nrows m)) by (apply (le_INR 2); auto).
  assert (M : cmean m j = entry m 0 j).
  { unfold cmean. rewrite (sumR_ext _ _ (fun _ => entry m 0 j)) by auto. rewrite sumR_const. field. lra. }
  split.
  - unfold csvar. rewrite (sumR_ext _ _ (fun _ => 0)). + rewrite sumR_zero by auto. unfold Rdiv; lra.
    + intros i Hi. rewrite C, M by auto. ring.
  - intros i Hi. rewrite M; auto.
Qed.

Definition std_of (smean sstd : X) (m : matrix R) : Standardizer X :=
  {| std_means := map (fun j => Fin (cmean m j)) (seq 0 (mcols m));
     std_variances := map (fun j => Fin (csvar m j)) (seq 0 (mcols m));
     std_mean := smean; std_stdev := sstd |}.
Lemma std_fit_inj smean sstd m : (2 <= nrows m)%nat -> standardizer_fit smean sstd (inj m) = Ok (std_of smean sstd m).
Proof.
  intros Hn. unfold standardizer_fit. rewrite nrows_inj. destruct (Nat.leb_spec (nrows m) 1); [lia|].
  rewrite col_mean_inj, col_var_inj by lia. cbv zeta.
  replace (existsb _ _) with false; [reflexivity|]. symmetry. apply not_true_iff_false. intros E.
  apply existsb_exists in E. destruct E as (x & Hx & Ex). apply in_map_iff in Hx. destruct Hx as (j & <- & _). discriminate.
Qed.

(** The transformed matrix when every variance is positive. *)
Definition std_row (smean sstd : R) (m : matrix R) (r : list R) : list R :=
  map2 (fun x j => (x - cmean m j) * sstd / sqrt (csvar m j) + smean) r (seq 0 (mcols m)).
Lemma map_Fin_std smean sstd m r js : (forall j, In j js -> 0 < csvar m j) ->
  map2 (fun x y => nadd (ndiv (nmul x (Fin sstd)) (nsqrt y)) (Fin smean))
    (map2 nsub (map Fin r) (map (fun j => Fin (cmean m j)) js)) (map (fun j => Fin (csvar m j)) js) =
  map Fin (map2 (fun x j => (x - cmean m j) * sstd / sqrt (csvar m j) + smean) r js).
Proof.
  revert js; induction r as [|x r IH]; intros [|j js] H; auto.
  cbn [map map2]. rewrite IH by (intros; apply H; right; auto). f_equal. cbn.
  assert (Hj : 0 < csvar m j) by (apply H; left; auto).
  destruct (Rlt_dec (csvar m j) 0); [lra|]. cbn.
  destruct (Req_EM_T (sqrt (csvar m j)) 0) as [E|_]; [apply sqrt_eq_0 in E; lra|]. cbn. reflexivity.
Qed.
Lemma std_transform_inj smean sstd m m0 : (forall j, (j < mcols m)%nat -> 0 < csvar m j) -> mcols m0 = mcols m ->
  standardizer_transform (std_of (Fin smean) (Fin sstd) m) (inj m0) =
  Ok (inj (Mat (map (std_row smean sstd m) (mrows m0)) (mcols m0))).
Proof.
  intros Hv Hc. unfold standardizer_transform. cbn [std_of std_means std_variances std_mean std_stdev inj mcols mrows].
  rewrite map_length, seq_length, Hc, Nat.eqb_refl. cbn [negb]. unfold inj; cbn [mrows mcols]. f_equal. f_equal.
  rewrite !map_map. apply map_ext. intros r. unfold std_row. apply map_Fin_std.
  intros j Hj. apply in_seq in Hj. apply Hv. lia.
Qed.

Lemma standardize_spec smean sstd m : mwf m -> (2 <= nrows m)%nat -> (forall j, (j < mcols m)%nat -> varies m j) ->
  exists st m', standardizer_fit (Fin smean) (Fin sstd) (inj m) = Ok st /\
    standardizer_transform st (inj m) = Ok (inj m') /\ mwf m' /\ nrows m' = nrows m /\ mcols m' = mcols m /\
    forall j, (j < mcols m)%nat -> cmean m' j = smean /\ csvar m' j = sstd ^ 2 /\
      forall i, (i < nrows m)%nat ->
        entry m' i j = (entry m i j - cmean m j) * sstd / sqrt (csvar m j) + smean.
Proof.
  intros W Hn Hv. exists (std_of (Fin smean) (Fin sstd) m), (Mat (map (std_row smean sstd m) (mrows m)) (mcols m)).
  assert (V : forall j, (j < mcols m)%nat -> 0 < csvar m j) by (intros; apply csvar_pos; auto).
  split; [apply std_fit_inj; auto|]. split; [apply std_transform_inj; auto|].
  split; [|split; [unfold nrows; simpl; apply map_length|split; [reflexivity|]]].
  { unfold mwf; simpl. apply Forall_map. eapply Forall_impl; [|exact W]. intros r Er; simpl in *.
    unfold std_row. rewrite map2_length, seq_length. lia. }
  intros j Hj. set (m' := Mat _ _).
  assert (NR : nrows m' = nrows m) by (unfold nrows, m'; simpl; apply map_length).
  assert (F : forall i, (i < nrows m)%nat -> entry m' i j = (entry m i j - cmean m j) * sstd / sqrt (csvar m j) + smean).
  { intros i Hi. unfold entry, m'; cbn [mrows]. rewrite nth_map_row by auto. unfold std_row.
    rewrite (map2_nth _ _ _ _ 0 O) by (rewrite ?seq_length, ?wf_row; auto). rewrite seq_nth by auto. auto. }
  assert (H2 : 2 <= INR (nrows m)) by (apply (le_INR 2); auto).
  pose proof (V j Hj) as Vj. assert (Sq : 0 < sqrt (csvar m j)) by (apply sqrt_lt_R0; auto).
  assert (M : cmean m' j = smean).
  { unfold cmean at 1. rewrite NR.
    rewrite (sumR_ext _ _ (fun i => (sstd / sqrt (csvar m j)) * (entry m i j + - cmean m j) + smean)).
    2:{ intros i Hi. rewrite F by auto. field. lra. }
    rewrite sumR_plus, sumR_scal, sumR_plus, !sumR_const.
    assert (E : sumR (nrows m) (fun i => entry m i j) = INR (nrows m) * cmean m j) by (unfold cmean; field; lra).
    rewrite E. field. split; lra. }
  split; auto. split; auto.
  unfold csvar at 1. rewrite NR, M.
  rewrite (sumR_ext _ _ (fun i => (sstd ^ 2 / csvar m j) * ((entry m i j - cmean m j) ^ 2))).
  2:{ intros i Hi. rewrite F by auto. replace (csvar m j) with (sqrt (csvar m j) ^ 2) at 2 by (apply pow2_sqrt; lra).
      field. lra. }
  rewrite sumR_scal. 
  assert (E : sumR (nrows m) (fun i => (entry m i j - cmean m j) ^ 2) = csvar m j * (INR (nrows m) - 1)) by (unfold csvar; field; lra).
  rewrite E. field. split; lra.
Qed.

(** Fitting: accepted iff two rows and finite data. *)
Lemma fold_xadd_nonfinite l a : xfinite a = false \/ Exists (fun x => xfinite x = false) l -> xfinite (fold_left xadd l a) = false.
Proof.
  revert a; induction l as [|x l IH]; intros a H; simpl.
  - destruct H as [|H]; auto. inversion H.
  - apply IH. destruct H as [H|H].
    + left. destruct a, x; simpl in *; auto; discriminate.
    + inversion H; subst; auto. left. destruct a, x; simpl in *; auto; discriminate.
Qed.
Lemma std_fit_rejects smean sstd (inputs : matrix X) : mwf inputs ->
  ((nrows inputs < 2)%nat \/ some_nonfinite inputs -> standardizer_fit smean sstd inputs = Err InvalidData) /\
  ((2 <= nrows inputs)%nat -> all_finite inputs -> exists st, standardizer_fit smean sstd inputs = Ok st).
Proof.
  intros W. split.
  - intros H. unfold standardizer_fit. destruct (Nat.leb_spec (nrows inputs) 1) as [|Hn]; auto.
    destruct H as [H|H]; [lia|].
    replace (existsb _ _) with true; auto. symmetry. apply existsb_exists.
    unfold some_nonfinite in H. apply Exists_exists in H. destruct H as (r & Hr & H).
    apply Exists_exists in H. destruct H as (x & Hx & Ex).
    apply (In_nth _ _ nzero) in Hx. destruct Hx as (j & Hj & Ej).
    assert (Hc : (j < mcols inputs)%nat). { unfold mwf in W. rewrite Forall_forall in W. rewrite <- (W r Hr). auto. }
    exists (ndiv (vsum (col inputs j)) (nofnat (nrows inputs))). split.
    + unfold col_mean. apply in_map_iff. exists j. split; auto. apply in_seq. lia.
    + assert (Hs : xfinite (vsum (col inputs j)) = false).
      { unfold vsum. apply fold_xadd_nonfinite. right. apply Exists_exists. exists x. split; auto.
        unfold col. apply in_map_iff. exists r. auto. }
      destruct (vsum (col inputs j)); simpl in Hs; try discriminate; cbn; auto; destruct (Rlt_dec _ 0); auto.
  - intros Hn [m ->]. rewrite nrows_inj in Hn. eexists. apply std_fit_inj; auto.
Qed.

(** Constant columns are not rejected and become NaN. *)
Lemma std_constant_nan smean sstd m j : mwf m -> (2 <= nrows m)%nat -> (j < mcols m)%nat -> ~ varies m j ->
  exists st out, standardizer_fit (Fin smean) (Fin sstd) (inj m) = Ok st /\
    standardizer_transform st (inj m) = Ok out /\
    forall i, (i < nrows m)%nat -> nth j (nth i (mrows out) []) (Fin 0) = NaN.
Proof.
  intros W Hn Hj Hv. exists (std_of (Fin smean) (Fin sstd) m). destruct (csvar_const m j Hn Hv) as [V0 C].
  eexists. split; [apply std_fit_inj; auto|]. split.
  - unfold standardizer_transform. cbn [std_of std_means std_variances std_mean std_stdev inj mcols mrows].
    rewrite map_length, seq_length, Nat.eqb_refl. cbn [negb]. reflexivity.
  - intros i Hi. cbn [mrows]. rewrite map_map.
    match goal with |- nth j (nth i (map ?f _) []) _ = _ => rewrite (nth_indep _ [] (f [])) by (rewrite map_length; auto); rewrite (map_nth f) end.
    rewrite (map2_nth _ _ _ _ (Fin 0) (Fin 0)).
    2:{ rewrite map2_length, !map_length, seq_length, wf_row; auto. lia. }
    2:{ rewrite map_length, seq_length. auto. }
    rewrite (map2_nth _ _ _ _ (Fin 0) (Fin 0)).
    2:{ rewrite map_length, wf_row; auto. }
    2:{ rewrite map_length, seq_length. auto. }
    rewrite (map_nth Fin), !seq_nth_map by auto. fold (entry m i j). rewrite C by auto. rewrite V0. cbn.
    destruct (Rlt_dec 0 0); [lra|]. rewrite sqrt_0. cbn. destruct (Req_EM_T 0 0); [|lra].
    unfold sgn_inf. replace ((cmean m j + - cmean m j) * sstd) with 0 by ring.
    destruct (Rlt_dec 0 0); [lra|]. auto.
Qed.

(** ** Inverse *)
Lemma std_cell_inv x mu v sm ss : 0 < v -> ss <> 0 ->
  xadd (xdiv (xmul (xsub (xadd (xdiv (xmul (xsub x (Fin mu)) (Fin ss)) (xsqrt (Fin v))) (Fin sm)) (Fin sm)) (xsqrt (Fin v))) (Fin ss)) (Fin mu) = x.
Proof.
  intros Hv Hs. assert (Sq : 0 < sqrt v) by (apply sqrt_lt_R0; auto).
  cbn [xsqrt]. destruct (Rlt_dec v 0); [lra|].
  destruct x as [x| | |]; cbn.
  - destruct (Req_EM_T (sqrt v) 0); [lra|]. cbn. destruct (Req_EM_T ss 0); [lra|]. cbn. f_equal. field. lra.
  - unfold sgn_inf. destruct (Rlt_dec 0 ss); cbn.
    + destruct (Rlt_dec (sqrt v) 0); [lra|]. cbn. unfold sgn_inf. destruct (Rlt_dec 0 (sqrt v)); [|lra]. cbn.
      destruct (Rlt_dec ss 0); [lra|]. auto.
    + destruct (Rlt_dec ss 0); [|lra]. cbn. destruct (Rlt_dec (sqrt v) 0); [lra|]. cbn. unfold sgn_inf.
      destruct (Rlt_dec 0 (- sqrt v)); [lra|]. destruct (Rlt_dec (- sqrt v) 0); [|lra]. cbn. destruct (Rlt_dec ss 0); [auto|lra].
  - unfold sgn_inf. destruct (Rlt_dec 0 (- ss)); cbn.
    + destruct (Rlt_dec (sqrt v) 0); [lra|]. cbn. unfold sgn_inf. destruct (Rlt_dec 0 (sqrt v)); [|lra]. cbn.
      destruct (Rlt_dec ss 0); [auto|lra].
    + destruct (Rlt_dec (- ss) 0); [|lra]. cbn. destruct (Rlt_dec (sqrt v) 0); [lra|]. cbn. unfold sgn_inf.
      destruct (Rlt_dec 0 (- sqrt v)); [lra|]. destruct (Rlt_dec (- sqrt v) 0); [|lra]. cbn. destruct (Rlt_dec ss 0); [lra|auto].
  - auto.
Qed.

Lemma std_row_inv sm ss r vs ms : ss <> 0 -> length r = length ms -> length vs = length ms ->
  Forall (fun v => exists r, v = Fin r /\ 0 < r) vs -> Forall (fun v => exists r, v = Fin r) ms ->
  map2 nadd
    (map2 (fun x y => ndiv (nmul (nsub x (Fin sm)) (nsqrt y)) (Fin ss))
       (map2 (fun x y => nadd (ndiv (nmul x (Fin ss)) (nsqrt y)) (Fin sm)) (map2 nsub r ms) vs) vs) ms = r.
Proof.
  intros Hs. revert vs ms; induction r as [|x r IH]; intros [|v vs] [|m ms] H1 H2 F1 F2; simpl in H1, H2; try discriminate; auto.
  inversion F1 as [|? ? (v' & -> & Hv) F1']; subst. inversion F2 as [|? ? (mu & ->) F2']; subst.
  cbn [map2]. rewrite IH by auto. f_equal. apply std_cell_inv; auto.
Qed.

Lemma std_inverse st (m : matrix X) : std_usable st -> mwf m ->
  (mcols m <> length (std_means st) ->
     standardizer_transform st m = Err InvalidData /\ standardizer_inv st m = Err InvalidData) /\
  (mcols m = length (std_means st) ->
     exists t, standardizer_transform st m = Ok t /\ standardizer_inv st t = Ok m).
Proof.
  intros (U1 & U2 & U3 & (sm & U4) & (ss & U5 & Hss)) W. split.
  - intros H. unfold standardizer_transform, standardizer_inv.
    destruct (Nat.eqb_spec (length (std_means st)) (mcols m)); [congruence|].
    destruct (Nat.eqb_spec (mcols m) (length (std_means st))); [congruence|]. auto.
  - intros H. unfold standardizer_transform, standardizer_inv. rewrite <- H, Nat.eqb_refl. cbn [negb].
    eexists; split; [reflexivity|]. cbn [mcols mrows]. rewrite Nat.eqb_refl. cbn [negb].
    destruct m as [rows c]; cbn [mcols mrows] in *. f_equal. f_equal. rewrite map_map.
    rewrite <- (map_id rows) at 2; apply map_ext_in; intros r Hr.
    unfold mwf in W; simpl in W; rewrite Forall_forall in W; specialize (W r Hr).
    rewrite U4, U5. apply std_row_inv; auto; congruence.
Qed.

Lemma std_fit_usable smean sstd m st : sstd <> 0 -> (2 <= nrows m)%nat -> (forall j, (j < mcols m)%nat -> varies m j) ->
  standardizer_fit (Fin smean) (Fin sstd) (inj m) = Ok st -> std_usable st /\ length (std_means st) = mcols m.
Proof.
  intros Hs Hn Hv E. rewrite std_fit_inj in E by auto. inversion E; subst. unfold std_usable, std_of; simpl.
  rewrite !map_length, seq_length. split; auto. split; auto. split.
  - apply Forall_map, Forall_forall. intros j Hj. apply in_seq in Hj. eexists; split; [reflexivity|]. apply csvar_pos; auto. apply Hv; lia.
  - split; [apply Forall_map, Forall_forall; eauto|]. split; eauto.
Qed.

(** ** Normalizer *)
Lemma xdot_fin r s : dot (map Fin r) (map Fin s) = Fin (dot r s).
Proof.
  unfold dot. rewrite map2_map. 
  replace (map2 (fun x y => nmul (Fin x) (Fin y)) r s) with (map Fin (map2 Rmult r s)).
  - rewrite xvsum_fin. f_equal. symmetry. apply vsum_R.
  - rewrite map_map2. reflexivity.
Qed.
Lemma norm2_fin r : norm2 (map Fin r) = Fin (row_len r).
Proof.
  unfold norm2. rewrite xdot_fin. cbn. destruct (Rlt_dec (dot r r) 0) as [H|]; [pose proof (dot_ge0 r); lra|].
  f_equal. unfold row_len. f_equal. rewrite dot_rsum, rsum_nth, map2_length, Nat.min_id. apply sumR_ext.
  intros i Hi. rewrite nth_map2_0 by auto. ring.
Qed.
Lemma row_len_dot r : row_len r = sqrt (dot r r).
Proof.
  unfold row_len. f_equal. rewrite dot_rsum, rsum_nth, map2_length, Nat.min_id. symmetry. apply sumR_ext.
  intros i Hi. rewrite nth_map2_0 by auto. ring.
Qed.
Definition norm_row (r : list R) : list R :=
  if Req_EM_T (row_len r) 0 then r else map (fun x => x / row_len r) r.
Lemma normalize_row_fin r : normalize_row norm2 (map Fin r) = Ok (map Fin (norm_row r)).
Proof.
  unfold normalize_row, norm_row. rewrite norm2_fin. cbn.
  destruct (Req_EM_T (row_len r) 0) as [E|E]; cbn; auto. f_equal. rewrite !map_map. apply map_ext. intros x. cbn.
  destruct (Req_EM_T (row_len r) 0); [contradiction|]. reflexivity.
Qed.
Lemma normalize_fin m : normalize norm2 (inj m) = Ok (inj (Mat (map norm_row (mrows m)) (mcols m))).
Proof.
  unfold normalize, inj; cbn [mrows mcols].
  assert (E : rmap (normalize_row norm2) (map (map Fin) (mrows m)) = Ok (map (map Fin) (map norm_row (mrows m)))).
  { induction (mrows m) as [|r l IH]; auto. cbn [map rmap]. rewrite normalize_row_fin, IH. reflexivity. }
  rewrite E. reflexivity.
Qed.
Lemma norm_row_spec r :
  (Forall (fun x => x = 0) r -> norm_row r = r) /\
  (~ Forall (fun x => x = 0) r -> row_len (norm_row r) = 1 /\ 0 < row_len r /\ map (Rmult (row_len r)) (norm_row r) = r).
Proof.
  assert (Z : Forall (fun x => x = 0) r <-> row_len r = 0).
  { rewrite row_len_dot. split; intros H.
    - rewrite dot_zeros_l by auto. apply sqrt_0.
    - apply sqrt_eq_0 in H; [|apply dot_ge0]. apply dot_self_0; auto. }
  rewrite Z. unfold norm_row. split; intros H.
  - destruct (Req_EM_T (row_len r) 0); [auto|contradiction].
  - destruct (Req_EM_T (row_len r) 0); [contradiction|].
    assert (P : 0 < row_len r). { rewrite row_len_dot in *. pose proof (sqrt_pos (dot r r)). lra. }
    split; [|split; auto].
    + replace (map (fun x => x / row_len r) r) with (vscale (/ row_len r) r) by reflexivity.
      rewrite (row_len_dot (vscale _ _)), dot_vscale_l, dot_comm, dot_vscale_l.
      assert (E : dot r r = row_len r * row_len r) by (rewrite row_len_dot; symmetry; apply sqrt_sqrt, dot_ge0).
      rewrite E. replace (/ row_len r * (/ row_len r * (row_len r * row_len r))) with 1 by (field; lra). apply sqrt_1.
    + rewrite map_map. transitivity (map id r); [|apply map_id]. apply map_ext. intros x. unfold id. field. lra.
Qed.

Lemma norm2_nonfinite (r : list X) : Exists (fun x => xfinite x = false) r -> xfinite (norm2 r) = false.
Proof.
  intros H. unfold norm2, dot, vsum.
  (* squares are non-negative, +inf or NaN; so are their sums *)
  assert (K : forall l a, (a = PInf \/ a = NaN \/ exists v, a = Fin v) ->
     let s := fold_left xadd (map2 xmul l l) a in
     (s = PInf \/ s = NaN \/ exists v, s = Fin v) /\
     (xfinite a = false \/ Exists (fun x => xfinite x = false) l -> s = PInf \/ s = NaN)).
  { clear. induction l as [|x l IH]; intros a Ha; cbv zeta; cbn [map2 fold_left].
    - split; auto. intros [E|E]; [|inversion E]. destruct Ha as [|[|(v & ->)]]; auto. discriminate.
    - destruct (IH (xadd a (xmul x x))) as [I1 I2].
      + destruct Ha as [->|[->|(v & ->)]]; destruct x; simpl; eauto 6.
      + split; auto. intros E. apply I2.
        destruct E as [E|E]; [left|inversion E; subst; auto; left];
        destruct Ha as [->|[->|(v & ->)]]; destruct x; simpl in *; auto; discriminate. }
  destruct (K r (Fin 0)) as [_ K2]; [eauto|]. specialize (K2 (or_intror H)).
  change (@nadd X NumXI) with xadd. change (@nmul X NumXI) with xmul. change (@nzero X NumXI) with (Fin 0).
  destruct K2 as [-> | ->]; reflexivity.
Qed.
Lemma normalize_bad (m : matrix X) : some_nonfinite m -> normalize norm2 m = Err InvalidData.
Proof.
  unfold some_nonfinite, normalize. intros H.
  assert (E : rmap (normalize_row norm2) (mrows m) = Err InvalidData); [|rewrite E; auto].
  induction (mrows m) as [|r l IH]; [inversion H|]. cbn [rmap].
  destruct (row_finite_dec r) as [[r' ->]|Hb].
  - rewrite normalize_row_fin. cbn [rbind]. rewrite IH; auto. inversion H; subst; auto.
    exfalso. clear - H1. induction r'; inversion H1; subst; auto. discriminate.
  - unfold normalize_row. apply norm2_nonfinite in Hb. change (@nfinite X NumXI) with xfinite. rewrite Hb. reflexivity.
Qed.
Lemma norm_row_idem r : norm_row (norm_row r) = norm_row r.
Proof.
  destruct (Forall_dec (fun x => x = 0) (fun x => Req_EM_T x 0) r) as [H|H].
  - destruct (norm_row_spec r) as [E _]. rewrite !E; auto.
  - destruct (norm_row_spec r) as [_ E]. destruct (E H) as (L & P & D).
    unfold norm_row at 1. destruct (Req_EM_T (row_len (norm_row r)) 0); [lra|].
    rewrite L. transitivity (map id (norm_row r)); [|apply map_id]. apply map_ext. intros; unfold id; field.
Qed.

Lemma normalize_spec (m : matrix R) :
  exists m', normalize norm2 (inj m) = Ok (inj m') /\ nrows m' = nrows m /\ mcols m' = mcols m /\
    normalize norm2 (inj m') = Ok (inj m') /\
    forall i r, nth_error (mrows m) i = Some r -> exists r', nth_error (mrows m') i = Some r' /\
      (Forall (fun x => x = 0) r -> r' = r) /\
      (~ Forall (fun x => x = 0) r -> row_len r' = 1 /\ 0 < row_len r /\ map (Rmult (row_len r)) r' = r).
Proof.
  exists (Mat (map norm_row (mrows m)) (mcols m)). split; [apply normalize_fin|].
  split; [unfold nrows; simpl; apply map_length|]. split; [reflexivity|]. split.
  - rewrite normalize_fin. cbn [mrows mcols]. do 3 f_equal. rewrite map_map. apply map_ext. apply norm_row_idem.
  - intros i r E. exists (norm_row r). cbn [mrows]. rewrite nth_error_map, E. split; auto. apply norm_row_spec.
Qed.
