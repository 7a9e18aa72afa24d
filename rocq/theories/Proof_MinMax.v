From Coq Require Import List Arith Reals Lra Lia Bool.
From Verif Require Import Base BaseLemmas Num NumX Linalg LinalgR Spec_Calc CalcR Model_Transforms Spec_Transforms.
Import ListNotations.
Local Open Scope R_scope.

Definition finp (p : R * R) : X * X := (Fin (fst p), Fin (snd p)).
Definition rmm (x : R) (p : R * R) : R * R :=
  (if Rlt_dec x (fst p) then x else fst p, if Rlt_dec (snd p) x then x else snd p).

Lemma minmax_row_fin row mm : length row = length mm ->
  minmax_row (map Fin row) (map finp mm) = Ok (map finp (map2 rmm row mm)).
Proof.
  revert mm; induction row as [|x row IH]; intros [|[a b] mm] H; simpl in H; try discriminate; auto.
  cbn [map minmax_row finp fst snd]. cbn [nfinite NumXI xfinite negb]. rewrite IH by lia. cbn [rbind map2 map].
  f_equal. f_equal. unfold finp, rmm; simpl. destruct (Rlt_dec x a), (Rlt_dec b x); reflexivity.
Qed.

Lemma minmax_rows_fin rows mm : Forall (fun r => length r = length mm) rows ->
  minmax_rows (map (map Fin) rows) (map finp mm) =
  Ok (map finp (fold_left (fun mm row => map2 rmm row mm) rows mm)).
Proof.
  intros H; revert mm H; induction rows as [|r rows IH]; intros mm H; auto.
  inversion H; subst. cbn [map minmax_rows]. rewrite minmax_row_fin by auto. cbn [rbind fold_left].
  apply IH. eapply Forall_impl; [|eassumption]. intros a Ha; simpl in *. rewrite map2_length. lia.
Qed.

Lemma fold_mm_length rows mm : Forall (fun r : list R => length r = length mm) rows ->
  length (fold_left (fun mm row => map2 rmm row mm) rows mm) = length mm.
Proof.
  revert mm; induction rows as [|r rows IH]; intros mm H; simpl; auto.
  inversion H; subst. rewrite IH; [rewrite map2_length; lia|].
  eapply Forall_impl; [|eassumption]. intros a Ha; simpl in *. rewrite map2_length. lia.
Qed.

Lemma fold_mm_nth rows mm j : Forall (fun r : list R => length r = length mm) rows -> (j < length mm)%nat ->
  nth j (fold_left (fun mm row => map2 rmm row mm) rows mm) (0, 0) =
  fold_left (fun p x => rmm x p) (map (fun r => nth j r 0) rows) (nth j mm (0, 0)).
Proof.
  revert mm; induction rows as [|r rows IH]; intros mm H Hj; simpl; auto.
  inversion H; subst. rewrite IH.
  - f_equal. apply map2_nth; lia.
  - eapply Forall_impl; [|eassumption]. intros a Ha; simpl in *. rewrite map2_length. lia.
  - rewrite map2_length. lia.
Qed.

Lemma fold_mm_bounds l a b :
  let p := fold_left (fun p x => rmm x p) l (a, b) in
  fst p <= a /\ b <= snd p /\ (forall x, In x l -> fst p <= x <= snd p) /\
  (fst p = a \/ In (fst p) l) /\ (snd p = b \/ In (snd p) l).
Proof.
  revert a b; induction l as [|x l IH]; intros a b; simpl.
  - repeat split; auto; try lra; contradiction.
  - cbv zeta in IH. specialize (IH (fst (rmm x (a, b))) (snd (rmm x (a, b)))).
    rewrite <- surjective_pairing in IH. destruct IH as (H1 & H2 & H3 & H4 & H5).
    set (p := fold_left (fun p x => rmm x p) l (rmm x (a, b))) in *. unfold rmm in *; simpl in *.
    destruct (Rlt_dec x a), (Rlt_dec b x); repeat split; try lra; try (destruct H as [->|H]; [lra|apply H3; auto]);
      intuition.
Qed.

(** Extremes of a non-empty column of numbers in range. *)
Lemma fold_mm_extremes l : l <> [] -> (forall x, In x l -> - f64_max_R <= x <= f64_max_R) ->
  let p := fold_left (fun p x => rmm x p) l (f64_max_R, - f64_max_R) in
  In (fst p) l /\ In (snd p) l /\ forall x, In x l -> fst p <= x <= snd p.
Proof.
  intros Hne Hr. pose proof (fold_mm_bounds l f64_max_R (- f64_max_R)) as B. cbv zeta in *.
  set (p := fold_left _ _ _) in *. destruct B as (H1 & H2 & H3 & H4 & H5).
  destruct l as [|x l]; [congruence|]. pose proof (H3 x (or_introl eq_refl)). pose proof (Hr x (or_introl eq_refl)).
  split; [|split; auto].
  - destruct H4 as [E|]; auto. assert (x = f64_max_R) by lra. left. congruence.
  - destruct H5 as [E|]; auto. assert (x = - f64_max_R) by lra. left. congruence.
Qed.

Lemma in_col m j x : In x (map (fun r => nth j r 0) (mrows m)) <-> exists i, (i < nrows m)%nat /\ entry m i j = x.
Proof.
  rewrite in_map_iff. split.
  - intros (r & E & Hr). apply (In_nth _ _ []) in Hr. destruct Hr as (i & Hi & Er). exists i. split; auto.
    unfold entry. congruence.
  - intros (i & Hi & E). exists (nth i (mrows m) []). split; auto. apply nth_In; auto.
Qed.

Definition mm_of (m : matrix R) : list (R * R) :=
  fold_left (fun mm row => map2 rmm row mm) (mrows m) (repeat (f64_max_R, - f64_max_R) (mcols m)).

Lemma mm_of_length m : mwf m -> length (mm_of m) = mcols m.
Proof. intros W. unfold mm_of. rewrite fold_mm_length; rewrite repeat_length; auto. Qed.
Lemma minmax_rows_inj m : mwf m ->
  minmax_rows (mrows (inj m)) (repeat (nmaxv, nopp nmaxv) (mcols (inj m))) = Ok (map finp (mm_of m)).
Proof.
  intros W. cbn [inj mrows mcols].
  change (@nmaxv X NumXI, @nopp X NumXI nmaxv) with (finp (f64_max_R, - f64_max_R)).
  replace (repeat (finp (f64_max_R, - f64_max_R)) (mcols m)) with (map finp (repeat (f64_max_R, - f64_max_R) (mcols m))).
  - apply minmax_rows_fin. rewrite repeat_length. auto.
  - induction (mcols m); simpl; congruence.
Qed.

Lemma mm_of_extremes m j : mwf m -> in_f64_range m -> (0 < nrows m)%nat -> (j < mcols m)%nat ->
  is_col_min m j (fst (nth j (mm_of m) (0, 0))) /\ is_col_max m j (snd (nth j (mm_of m) (0, 0))).
Proof.
  intros W Hr Hn Hj. unfold mm_of. rewrite fold_mm_nth by (rewrite repeat_length; auto).
  rewrite nth_indep with (d' := (f64_max_R, - f64_max_R)) by (rewrite repeat_length; auto).
  rewrite nth_repeat.
  pose proof (fold_mm_extremes (map (fun r => nth j r 0) (mrows m))) as E. cbv zeta in E.
  set (p := fold_left _ _ _) in *. destruct E as (E1 & E2 & E3).
  - intros E. apply map_eq_nil in E. unfold nrows in Hn. rewrite E in Hn. simpl in Hn; lia.
  - intros x Hx. apply in_col in Hx. destruct Hx as (i & Hi & <-). apply Hr; auto.
  - split; (split; [apply in_col; auto|]); intros i Hi; apply E3; apply in_col; eauto.
Qed.

Lemma is_min_unique m j a b : is_col_min m j a -> is_col_min m j b -> a = b.
Proof. intros [(i & Hi & E) H] [(i' & Hi' & E') H']. specialize (H i' Hi'). specialize (H' i Hi). lra. Qed.
Lemma is_max_unique m j a b : is_col_max m j a -> is_col_max m j b -> a = b.
Proof. intros [(i & Hi & E) H] [(i' & Hi' & E') H']. specialize (H i' Hi'). specialize (H' i Hi). lra. Qed.
Lemma varies_iff m j lo hi : is_col_min m j lo -> is_col_max m j hi -> (varies m j <-> lo < hi).
Proof.
  intros [(i & Hi & E) H] [(i' & Hi' & E') H']. split.
  - intros (k & k' & Hk & Hk' & Hne). pose proof (H k Hk). pose proof (H k' Hk'). pose proof (H' k Hk). pose proof (H' k' Hk'). lra.
  - intros Hlt. exists i, i'. repeat split; auto. lra.
Qed.

(** The factors computed from the extremes. *)
Definition sfac (smin smax : R) (p : R * R) : R := (smax - smin) / (snd p - fst p).
Lemma minmax_scale_fin smin smax p :
  minmax_scale (Fin smin) (Fin smax) (finp p) =
  if Req_EM_T (snd p - fst p) 0 then Err InvalidData else Ok (Fin (sfac smin smax p)).
Proof.
  unfold minmax_scale, finp, sfac. cbn [fst snd nsub ndiv nfinite NumXI xsub xadd xopp xdiv].
  change (snd p + - fst p) with (snd p - fst p). change (smax + - smin) with (smax - smin).
  destruct (Req_EM_T (snd p - fst p) 0); auto.
  unfold sgn_inf. destruct (Rlt_dec 0 (smax - smin)); auto. destruct (Rlt_dec (smax - smin) 0); auto.
Qed.

Lemma rmap_scale_ok smin smax mm : Forall (fun p => snd p - fst p <> 0) mm ->
  rmap (minmax_scale (Fin smin) (Fin smax)) (map finp mm) = Ok (map (fun p => Fin (sfac smin smax p)) mm).
Proof.
  induction 1 as [|p mm Hp H IH]; auto. cbn [map rmap]. rewrite minmax_scale_fin.
  destruct (Req_EM_T (snd p - fst p) 0); [contradiction|]. rewrite IH. reflexivity.
Qed.
Lemma rmap_scale_err smin smax mm : Exists (fun p => snd p - fst p = 0) mm ->
  rmap (minmax_scale (Fin smin) (Fin smax)) (map finp mm) = Err InvalidData.
Proof.
  induction mm as [|p mm IH]; intros H; [inversion H|]. cbn [map rmap]. rewrite minmax_scale_fin.
  destruct (Req_EM_T (snd p - fst p) 0) as [E|E]; auto. inversion H; subst; [contradiction|]. rewrite IH; auto.
Qed.

Definition fitted (smin smax : R) (mm : list (R * R)) : MinMaxScaler X :=
  {| scale_factors := map (fun p => Fin (sfac smin smax p)) mm;
     const_factors := map (fun p => Fin (smax - snd p * sfac smin smax p)) mm |}.

Lemma fit_ok smin smax m : mwf m -> Forall (fun p => snd p - fst p <> 0) (mm_of m) ->
  minmax_fit (Fin smin) (Fin smax) (inj m) = Ok (fitted smin smax (mm_of m)).
Proof.
  intros W H. unfold minmax_fit. rewrite minmax_rows_inj by auto. cbn [rbind].
  rewrite rmap_scale_ok by auto. cbn [rbind]. f_equal. unfold fitted. f_equal.
  rewrite map2_map. clear. induction (mm_of m) as [|p mm IH]; simpl; auto.
  simpl in IH. rewrite IH. reflexivity.
Qed.

Lemma transform_fitted smin smax mm m : length mm = mcols m -> mwf m ->
  minmax_transform (fitted smin smax mm) (inj m) =
  Ok (inj (Mat (map (fun row => map2 (fun x p => x * sfac smin smax p + (smax - snd p * sfac smin smax p)) row mm) (mrows m)) (mcols m))).
Proof.
  intros Hl W. unfold minmax_transform. cbn [scale_factors const_factors fitted inj mcols mrows].
  rewrite map_length, Hl, Nat.eqb_refl. cbn [negb]. unfold inj; cbn [mrows mcols]. f_equal. f_equal.
  rewrite !map_map. apply map_ext. intros row. clear. revert mm; induction row as [|x row IH]; intros [|p mm]; simpl; auto.
  rewrite <- IH. reflexivity.
Qed.

Lemma good_mm m : mwf m -> in_f64_range m -> (0 < nrows m)%nat ->
  (forall j, (j < mcols m)%nat -> varies m j) -> Forall (fun p => fst p < snd p) (mm_of m).
Proof.
  intros W Hr Hn Hv. apply Forall_forall. intros p Hp. apply (In_nth _ _ (0, 0)) in Hp.
  destruct Hp as (j & Hj & <-). rewrite mm_of_length in Hj by auto.
  destruct (mm_of_extremes m j W Hr Hn Hj) as [H1 H2]. apply (varies_iff m j _ _ H1 H2). auto.
Qed.

Lemma nth_map_row (rows : list (list R)) (f : list R -> list R) i : (i < length rows)%nat ->
  nth i (map f rows) [] = f (nth i rows []).
Proof. intros H. rewrite (nth_indep _ [] (f [])) by (rewrite map_length; auto). apply map_nth. Qed.

Lemma minmax_range smin smax m : smin < smax -> mwf m -> in_f64_range m -> (0 < nrows m)%nat ->
  (forall j, (j < mcols m)%nat -> varies m j) ->
  exists sc m', minmax_fit (Fin smin) (Fin smax) (inj m) = Ok sc /\
    minmax_transform sc (inj m) = Ok (inj m') /\ mwf m' /\ nrows m' = nrows m /\ mcols m' = mcols m /\
    forall j lo hi, (j < mcols m)%nat -> is_col_min m j lo -> is_col_max m j hi ->
      is_col_min m' j smin /\ is_col_max m' j smax /\
      forall i, (i < nrows m)%nat ->
        entry m' i j = smin + (entry m i j - lo) * ((smax - smin) / (hi - lo)) /\
        smin <= entry m' i j <= smax /\
        (entry m i j = lo -> entry m' i j = smin) /\ (entry m i j = hi -> entry m' i j = smax) /\
        (forall i', (i' < nrows m)%nat -> (entry m i j < entry m i' j <-> entry m' i j < entry m' i' j)).
Proof.
  intros Hs W Hr Hn Hv. pose proof (good_mm m W Hr Hn Hv) as G.
  assert (G' : Forall (fun p => snd p - fst p <> 0) (mm_of m)) by (eapply Forall_impl; [|apply G]; simpl; intros; lra).
  eexists. exists (Mat (map (fun row => map2 (fun x p => x * sfac smin smax p + (smax - snd p * sfac smin smax p)) row (mm_of m)) (mrows m)) (mcols m)).
  split; [apply fit_ok; auto|]. split; [apply transform_fitted; auto using mm_of_length|].
  split; [|split; [|split; [reflexivity|]]].
  { unfold mwf; simpl. apply Forall_map. eapply Forall_impl; [|exact W]. intros r Er; simpl in *.
    rewrite map2_length, mm_of_length; auto. lia. }
  { unfold nrows; simpl. apply map_length. }
  intros j lo hi Hj Hlo Hhi. set (m' := Mat _ _).
  destruct (mm_of_extremes m j W Hr Hn Hj) as [H1 H2].
  pose proof (is_min_unique _ _ _ _ H1 Hlo) as E1. pose proof (is_max_unique _ _ _ _ H2 Hhi) as E2.
  assert (Hlt : lo < hi) by (apply (varies_iff m j lo hi Hlo Hhi); auto).
  assert (F : forall i, (i < nrows m)%nat -> entry m' i j = smin + (entry m i j - lo) * ((smax - smin) / (hi - lo))).
  { intros i Hi. unfold entry, m'; cbn [mrows]. rewrite nth_map_row by auto.
    rewrite (map2_nth _ _ _ _ 0 (0, 0)) by (rewrite ?mm_of_length, ?wf_row; auto).
    unfold sfac. rewrite E1, E2. field. lra. }
  assert (Hk : 0 < (smax - smin) / (hi - lo)) by (apply Rdiv_lt_0_compat; lra).
  assert (Hk2 : (hi - lo) * ((smax - smin) / (hi - lo)) = smax - smin) by (field; lra).
  set (k := (smax - smin) / (hi - lo)) in *.
  destruct Hlo as [(ilo & Hilo & Elo) Hlo]. destruct Hhi as [(ihi & Hihi & Ehi) Hhi].
  assert (NR : nrows m' = nrows m) by (unfold nrows, m'; simpl; apply map_length).
  assert (B : forall i, (i < nrows m)%nat -> smin <= entry m' i j <= smax).
  { intros i Hi. rewrite F by auto. pose proof (Hlo i Hi). pose proof (Hhi i Hi). split; nra. }
  split; [|split].
  - split; [exists ilo; split; [lia|]; rewrite F by auto; rewrite Elo; ring|]. intros i Hi. apply B. lia.
  - split; [exists ihi; split; [lia|]; rewrite F by auto; rewrite Ehi; lra|]. intros i Hi. apply B. lia.
  - intros i Hi. split; [apply F; auto|]. split; [apply B; auto|].
    split; [intros E; rewrite F, E by auto; ring|]. split; [intros E; rewrite F, E by auto; lra|].
    intros i' Hi'. rewrite !F by auto. split; intros K.
      + apply Rplus_lt_compat_l. apply Rmult_lt_compat_r; lra.
      + apply Rplus_lt_reg_l in K. apply Rmult_lt_reg_r in K; lra.
Qed.

(** ** Rejection *)
Lemma row_finite_dec (r : list X) : (exists r', r = map Fin r') \/ Exists (fun x => xfinite x = false) r.
Proof.
  induction r as [|x r IH]; [left; exists []; auto|].
  destruct x as [v| | |]; try (right; constructor; reflexivity).
  destruct IH as [[r' ->]|H]; [left; exists (v :: r'); auto|right; constructor 2; auto].
Qed.
Lemma rows_finite_dec (rows : list (list X)) :
  (exists rs, rows = map (map Fin) rs) \/ Exists (fun r => Exists (fun x => xfinite x = false) r) rows.
Proof.
  induction rows as [|r rows IH]; [left; exists []; auto|].
  destruct (row_finite_dec r) as [[r' ->]|H]; [|right; constructor; auto].
  destruct IH as [[rs ->]|H]; [left; exists (r' :: rs); auto|right; constructor 2; auto].
Qed.
Lemma finite_dec (m : matrix X) : all_finite m \/ some_nonfinite m.
Proof.
  destruct (rows_finite_dec (mrows m)) as [[rs E]|H]; [left|right; auto].
  exists (Mat rs (mcols m)). destruct m; unfold inj; simpl in *. congruence.
Qed.

Lemma minmax_row_bad row mm : length row = length mm -> Exists (fun x => xfinite x = false) row ->
  minmax_row (F := X) row mm = Err InvalidData.
Proof.
  revert mm; induction row as [|x row IH]; intros [|[a b] mm] H E; simpl in H; try discriminate; [inversion E|].
  cbn [minmax_row]. destruct (nfinite x) eqn:Ef; cbn [negb]; auto.
  inversion E; subst; [simpl in Ef; congruence|]. rewrite IH; auto.
Qed.
Lemma minmax_row_len (row : list X) mm mm' : minmax_row row mm = Ok mm' -> length mm' = length mm.
Proof.
  revert mm mm'; induction row as [|x row IH]; intros [|[a b] mm] mm' H; cbn [minmax_row] in H; try (inversion H; reflexivity).
  destruct (negb (nfinite x)); [discriminate|].
  destruct (minmax_row row mm) as [r| |] eqn:E; cbn [rbind] in H; try discriminate. inversion H; simpl. f_equal. eauto.
Qed.
Lemma minmax_rows_bad rows mm : Forall (fun r => length r = length mm) rows ->
  Exists (fun r => Exists (fun x => xfinite x = false) r) rows ->
  minmax_rows (F := X) rows mm = Err InvalidData.
Proof.
  revert mm; induction rows as [|r rows IH]; intros mm H E; [inversion E|].
  inversion H; subst. cbn [minmax_rows].
  destruct (row_finite_dec r) as [[r' ->]|Hb]; [|rewrite minmax_row_bad by auto; auto].
  destruct (minmax_row (map Fin r') mm) as [mm'|k|] eqn:Em; cbn [rbind].
  - apply IH.
    + apply minmax_row_len in Em. rewrite Em. auto.
    + inversion E; subst; auto. exfalso. clear - H1. induction r'; inversion H1; subst; auto. discriminate.
  - exfalso. clear - Em. revert mm k Em. induction r' as [|x r IH]; intros [|[a b] mm] k Em; cbn in Em; try discriminate.
    destruct (minmax_row (map Fin r) mm) eqn:E; cbn in Em; try discriminate. eauto.
  - exfalso. clear - Em. revert mm Em. induction r' as [|x r IH]; intros [|[a b] mm] Em; cbn in Em; try discriminate.
    destruct (minmax_row (map Fin r) mm) eqn:E; cbn in Em; try discriminate. eauto.
Qed.

Lemma scale_bad_range smin smax p : (xfinite smin = false \/ xfinite smax = false) ->
  minmax_scale smin smax (finp p) = Err InvalidData.
Proof.
  intros H. unfold minmax_scale, finp. cbn [fst snd nsub ndiv nfinite NumXI].
  destruct smin, smax; simpl in H; try (destruct H; discriminate); cbn; auto;
  destruct (Rlt_dec (snd p + - fst p) 0); auto.
Qed.

Lemma minmax_rejects smin smax inputs :
  mwf inputs -> (0 < nrows inputs)%nat -> (0 < mcols inputs)%nat ->
  (forall m, inputs = inj m -> in_f64_range m) ->
  let bad := xfinite smin = false \/ xfinite smax = false \/ some_nonfinite inputs \/
             exists m j, inputs = inj m /\ (j < mcols m)%nat /\ ~ varies m j in
  (bad -> minmax_fit smin smax inputs = Err InvalidData) /\
  (~ bad -> exists sc, minmax_fit smin smax inputs = Ok sc /\
     forall m, mwf m -> mcols m = mcols inputs ->
       exists m', minmax_transform sc (inj m) = Ok (inj m') /\ mwf m' /\ nrows m' = nrows m /\ mcols m' = mcols m).
Proof.
  intros W Hn Hc Hr bad.
  destruct (finite_dec inputs) as [[m ->]|Hbad].
  2:{ split.
      - intros _. unfold minmax_fit. rewrite minmax_rows_bad; auto. rewrite repeat_length. exact W.
      - intros H. exfalso. apply H. unfold bad. auto. }
  specialize (Hr m eq_refl).
  assert (Wm : mwf m).
  { unfold mwf in *; simpl in *. rewrite Forall_map in W. eapply Forall_impl; [|apply W]. intros r Er; simpl in *. rewrite map_length in Er. auto. }
  assert (Hnm : (0 < nrows m)%nat) by (unfold nrows in *; simpl in *; rewrite map_length in Hn; auto).
  cbn [mcols inj] in *.
  assert (Hnf : ~ some_nonfinite (inj m)).
  { unfold some_nonfinite; simpl. intros H. apply Exists_exists in H. destruct H as (r & Hr1 & Hr2).
    apply in_map_iff in Hr1. destruct Hr1 as (r' & <- & _). apply Exists_exists in Hr2. destruct Hr2 as (x & Hx & Ex).
    apply in_map_iff in Hx. destruct Hx as (v & <- & _). discriminate. }
  assert (Hinj : forall m', inj m = inj m' -> m = m').
  { intros [rs c] E. destruct m as [rs0 c0]. unfold inj in E; simpl in E. inversion E; subst. f_equal.
    clear - H0. revert rs H0; induction rs0 as [|r l IH]; intros [|r' l'] H; simpl in H; try discriminate; auto.
    inversion H. f_equal; auto. clear - H1. revert r' H1; induction r; intros [|y r'] H; simpl in H; try discriminate; auto.
    inversion H. f_equal; auto. }
  split.
  - intros B. unfold minmax_fit. rewrite minmax_rows_inj by auto. cbn [rbind].
    assert (Hlen : length (mm_of m) = mcols m) by (apply mm_of_length; auto).
    destruct (xfinite smin && xfinite smax) eqn:Ef.
    + apply andb_true_iff in Ef. destruct Ef as [Ef1 Ef2].
      destruct smin as [a| | |], smax as [b| | |]; try discriminate.
      destruct B as [B|[B|[B|(m' & j & Em & Hj & Hv)]]]; try discriminate; try contradiction.
      apply Hinj in Em. subst m'. destruct (mm_of_extremes m j Wm Hr Hnm Hj) as [E1 E2].
      rewrite rmap_scale_err; auto. apply Exists_exists. exists (nth j (mm_of m) (0, 0)).
      split; [apply nth_In; lia|].
      assert (~ fst (nth j (mm_of m) (0, 0)) < snd (nth j (mm_of m) (0, 0))) by (intros K; apply Hv; apply (varies_iff m j _ _ E1 E2); auto).
      destruct E1 as [(i & Hi & E1) _]. destruct E2 as [_ E2]. specialize (E2 i Hi). lra.
    + destruct (mm_of m) as [|p mm] eqn:Emm; [simpl in Hlen; lia|]. cbn [map rmap].
      rewrite scale_bad_range; auto. apply andb_false_iff in Ef. tauto.
  - intros B. unfold bad in B.
    destruct smin as [a| | |]; try (exfalso; apply B; left; reflexivity).
    destruct smax as [b| | |]; try (exfalso; apply B; right; left; reflexivity).
    exists (fitted a b (mm_of m)). split.
    + apply fit_ok; auto. apply Forall_forall. intros p Hp. apply (In_nth _ _ (0, 0)) in Hp.
      destruct Hp as (j & Hj & <-). rewrite mm_of_length in Hj by auto.
      destruct (mm_of_extremes m j Wm Hr Hnm Hj) as [E1 E2]. intros E.
      apply B. right; right; right. exists m, j. split; auto. split; auto. intros V. apply (varies_iff m j _ _ E1 E2) in V. lra.
    + intros m0 W0 Hc0. eexists. split; [apply transform_fitted; auto; rewrite mm_of_length; auto|].
      split; [|split; [unfold nrows; simpl; apply map_length|reflexivity]].
      unfold mwf; simpl. apply Forall_map. eapply Forall_impl; [|exact W0]. intros r Er; simpl in *.
      rewrite map2_length, mm_of_length; auto. lia.
Qed.

(** ** Inverse *)
Lemma minmax_cell_inv x s c : s <> 0 -> xdiv (xsub (xadd (xmul x (Fin s)) (Fin c)) (Fin c)) (Fin s) = x.
Proof.
  intros Hs. destruct x as [v| | |]; cbn.
  - destruct (Req_EM_T s 0); [contradiction|]. f_equal. field. auto.
  - unfold sgn_inf. destruct (Rlt_dec 0 s); cbn; [destruct (Rlt_dec s 0); [lra|auto]|].
    destruct (Rlt_dec s 0); cbn; [destruct (Rlt_dec s 0); [auto|lra]|lra].
  - unfold sgn_inf. destruct (Rlt_dec 0 (- s)); cbn; [destruct (Rlt_dec s 0); [auto|lra]|].
    destruct (Rlt_dec (- s) 0); cbn; [destruct (Rlt_dec s 0); [lra|auto]|lra].
  - auto.
Qed.
Lemma minmax_cell_inv' x s c : s <> 0 -> xadd (xmul (xdiv (xsub x (Fin c)) (Fin s)) (Fin s)) (Fin c) = x.
Proof.
  intros Hs. destruct x as [v| | |]; cbn.
  - destruct (Req_EM_T s 0); [contradiction|]. cbn. f_equal. field. auto.
  - destruct (Rlt_dec s 0); cbn; unfold sgn_inf.
    + destruct (Rlt_dec 0 (- s)); [auto|lra].
    + destruct (Rlt_dec 0 s); [auto|lra].
  - destruct (Rlt_dec s 0); cbn; unfold sgn_inf.
    + destruct (Rlt_dec 0 s); [lra|]. destruct (Rlt_dec s 0); [auto|lra].
    + destruct (Rlt_dec 0 (- s)); [lra|]. destruct (Rlt_dec (- s) 0); [auto|lra].
  - auto.
Qed.

Lemma row_inv row ss cs : length row = length ss -> length cs = length ss ->
  Forall (fun s => exists r, s = Fin r /\ r <> 0) ss -> Forall (fun c => exists r, c = Fin r) cs ->
  map2 xdiv (map2 xsub (map2 xadd (map2 xmul row ss) cs) cs) ss = row /\
  map2 xadd (map2 xmul (map2 xdiv (map2 xsub row cs) ss) ss) cs = row.
Proof.
  revert ss cs; induction row as [|x row IH]; intros [|s ss] [|c cs] H1 H2 F1 F2; simpl in *; try discriminate; auto.
  inversion F1 as [|? ? (r & -> & Hr) F1']; subst. inversion F2 as [|? ? (d & ->) F2']; subst.
  destruct (IH ss cs) as [I1 I2]; auto. rewrite minmax_cell_inv, minmax_cell_inv', I1, I2 by auto. auto.
Qed.

Lemma minmax_inverse sc (m : matrix X) : usable sc -> mwf m ->
  (mcols m <> length (scale_factors sc) ->
     minmax_transform sc m = Err InvalidData /\ minmax_inv sc m = Err InvalidData) /\
  (mcols m = length (scale_factors sc) ->
     (exists t, minmax_transform sc m = Ok t /\ minmax_inv sc t = Ok m) /\
     (exists t, minmax_inv sc m = Ok t /\ minmax_transform sc t = Ok m)).
Proof.
  intros (U1 & U2 & U3) W. split.
  - intros H. unfold minmax_transform, minmax_inv.
    destruct (Nat.eqb_spec (length (scale_factors sc)) (mcols m)); [congruence|].
    destruct (Nat.eqb_spec (mcols m) (length (scale_factors sc))); [congruence|]. auto.
  - intros H. unfold minmax_transform, minmax_inv. rewrite <- H, Nat.eqb_refl. cbn [negb].
    split; (eexists; split; [reflexivity|]); cbn [mcols mrows]; rewrite ?H, Nat.eqb_refl; cbn [negb];
      destruct m as [rows c]; cbn [mcols mrows] in *; f_equal; f_equal; auto; rewrite map_map;
      rewrite <- (map_id rows) at 2; apply map_ext_in; intros r Hr;
      unfold mwf in W; simpl in W; rewrite Forall_forall in W; specialize (W r Hr);
      destruct (row_inv r (scale_factors sc) (const_factors sc)) as [I1 I2]; auto; congruence.
Qed.

(** Every successful fit with a proper range on at least one row is usable. *)
Lemma minmax_fit_usable smin smax m sc : smin <> smax -> mwf m -> in_f64_range m -> (0 < nrows m)%nat ->
  minmax_fit (Fin smin) (Fin smax) (inj m) = Ok sc -> usable sc /\ length (scale_factors sc) = mcols m.
Proof.
  intros Hs W Hr Hn E.
  assert (G : Forall (fun p => snd p - fst p <> 0) (mm_of m)).
  { apply Forall_forall. intros p Hp K. unfold minmax_fit in E. rewrite minmax_rows_inj in E by auto. cbn [rbind] in E.
    rewrite rmap_scale_err in E; [discriminate|]. apply Exists_exists. eauto. }
  rewrite fit_ok in E by auto. inversion E; subst. unfold usable, fitted; simpl. rewrite !map_length.
  split; [|apply mm_of_length; auto]. split; auto. split.
  - apply Forall_map. eapply Forall_impl; [|apply G]. simpl. intros p Hp. eexists; split; [reflexivity|].
    unfold sfac. apply Rmult_integral_contrapositive. split; [lra|]. apply Rinv_neq_0_compat; auto.
  - apply Forall_map. apply Forall_forall. intros. eauto.
Qed.
