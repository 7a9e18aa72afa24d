(** * Proofs: scaling before training *)
From Coq Require Import List Arith Reals Lra Lia Bool.
From Verif Require Import Base BaseLemmas Num NumX Linalg LinalgR Spec_Calc CalcR Spec_Regression NumFn Model_Regression Proof_Regression Model_GLM Spec_GLM Model_Transforms Spec_Transforms Proof_MinMax Proof_Standardize.
From Verif Require Import Spec_Equiv Proof_Equiv Model_NaiveBayes Spec_NaiveBayes Spec_NBInv Proof_NBInv Spec_Pipeline.
Import ListNotations.
Local Open Scope R_scope.

Lemma inj_inv A B : inj A = inj B -> A = B.
Proof.
  destruct A as [a c], B as [b d]. unfold inj. cbn [mrows mcols]. intros [= E ->]. f_equal. revert b E.
  assert (L : forall r s : list R, map Fin r = map Fin s -> r = s).
  { induction r as [|x r IH]; intros [|y s] H; try discriminate; [reflexivity|]. cbn in H. injection H as -> H. f_equal. auto. }
  induction a as [|r a IH]; intros [|s b] E; try discriminate; [reflexivity|]. cbn in E. injection E as E1 E2. f_equal; auto.
Qed.
Lemma ok_inj A B : Ok (inj A) = Ok (inj B) -> A = B.
Proof. intros E. apply inj_inv. congruence. Qed.
Definition real (x : X) : R := match x with Fin r => r | _ => 0 end.
Lemma new_units_cons a b ab x r : new_units ((a, b) :: ab) (x :: r) = (a * x + b) :: new_units ab r.
Proof. unfold new_units. cbn [length seq map nth fst snd]. f_equal. rewrite <- seq_shift, map_map. apply map_ext. intros k. reflexivity. Qed.

Definition mm_units (sc : MinMaxScaler X) : list (R * R) := map2 (fun s c => (real s, real c)) (scale_factors sc) (const_factors sc).
Lemma mm_row (ss cs : list X) (r : list R) : length cs = length ss -> length r = length ss ->
  Forall (fun s => exists r, s = Fin r /\ r <> 0) ss -> Forall (fun c => exists r, c = Fin r) cs ->
  map2 nadd (map2 nmul (map Fin r) ss) cs = map Fin (new_units (map2 (fun s c => (real s, real c)) ss cs) r).
Proof.
  revert cs r. induction ss as [|s ss IH]; intros [|c cs] [|x r] Lc Lr F1 F2; try discriminate; [reflexivity|].
  inversion F1 as [|? ? (s' & -> & _) F1']; subst. inversion F2 as [|? ? (c' & ->) F2']; subst.
  cbn [map2 map real]. rewrite new_units_cons. cbn [map]. rewrite IH by (auto; cbn in *; lia). f_equal. cbn [nadd nmul NumXI]. cbn. f_equal. ring.
Qed.
Lemma mm_units_ok sc : usable sc -> length (mm_units sc) = length (scale_factors sc) /\ Forall (fun t => fst t <> 0) (mm_units sc).
Proof.
  intros (L & F1 & F2). unfold mm_units. rewrite map2_length, L, Nat.min_id. split; [reflexivity|].
  revert L F1 F2. generalize (scale_factors sc) (const_factors sc). induction l as [|s l IH]; intros [|c cs] L F1 F2; try discriminate; [constructor|].
  inversion F1 as [|? ? (s' & -> & Hs) F1']; subst. inversion F2; subst. cbn [map2]. constructor; [exact Hs|]. apply IH; auto.
Qed.
Lemma mm_transform sc n : usable sc -> mwf n -> mcols n = length (scale_factors sc) ->
  minmax_transform sc (inj n) = Ok (inj (map_rows (new_units (mm_units sc)) (mcols n) n)).
Proof.
  intros (L & F1 & F2) W C. unfold minmax_transform. cbn [inj mcols mrows]. rewrite <- C, Nat.eqb_refl. cbn [negb]. unfold map_rows, inj. cbn [mrows mcols].
  do 2 f_equal. rewrite !map_map. apply map_ext_in. intros r Hr. unfold mwf in W. rewrite Forall_forall in W. specialize (W r Hr). apply mm_row; auto. congruence.
Qed.

Definition std_units (st : Standardizer X) : list (R * R) :=
  map2 (fun m v => (real (std_stdev st) / sqrt (real v), real (std_mean st) - real m * (real (std_stdev st) / sqrt (real v)))) (std_means st) (std_variances st).
Lemma std_row (sm ss : R) (vs ms : list X) (r : list R) : length vs = length ms -> length r = length ms ->
  Forall (fun v => exists r, v = Fin r /\ 0 < r) vs -> Forall (fun v => exists r, v = Fin r) ms ->
  map2 (fun x y => nadd (ndiv (nmul x (Fin ss)) (nsqrt y)) (Fin sm)) (map2 nsub (map Fin r) ms) vs =
  map Fin (new_units (map2 (fun m v => (ss / sqrt (real v), sm - real m * (ss / sqrt (real v)))) ms vs) r).
Proof.
  revert vs r. induction ms as [|m ms IH]; intros [|v vs] [|x r] Lc Lr F1 F2; try discriminate; [reflexivity|].
  inversion F1 as [|? ? (v' & -> & Hv) F1']; subst. inversion F2 as [|? ? (c' & ->) F2']; subst.
  cbn [map2 map real]. rewrite new_units_cons. cbn [map]. rewrite IH by (auto; cbn in *; lia). f_equal.
  pose proof (sqrt_lt_R0 _ Hv) as Hs. cbn [nadd nmul ndiv nsub nsqrt NumXI]. unfold xsqrt. destruct (Rlt_dec v' 0); [lra|]. unfold xsub. cbn [xopp xadd xmul].
  unfold xdiv. destruct (Req_EM_T (sqrt v') 0); [lra|]. cbn [xadd]. f_equal. field. lra.
Qed.
Lemma std_units_ok st : std_usable st -> length (std_units st) = length (std_means st) /\ Forall (fun t => fst t <> 0) (std_units st).
Proof.
  intros (L & F1 & F2 & _ & (ss & E & Hs)). unfold std_units. rewrite map2_length, L, Nat.min_id. split; [reflexivity|]. rewrite E. cbn [real].
  revert L F1 F2. generalize (std_means st) (std_variances st). induction l as [|m l IH]; intros [|v vs] L F1 F2; try discriminate; [constructor|].
  inversion F1 as [|? ? (v' & -> & Hv) F1']; subst. inversion F2; subst. cbn [map2]. constructor; [|apply IH; auto]. cbn [fst real].
  pose proof (sqrt_lt_R0 _ Hv) as Hq. apply Rmult_integral_contrapositive. split; [exact Hs|]. apply Rinv_neq_0_compat. lra.
Qed.
Lemma std_transform st n : std_usable st -> mwf n -> mcols n = length (std_means st) ->
  standardizer_transform st (inj n) = Ok (inj (map_rows (new_units (std_units st)) (mcols n) n)).
Proof.
  intros (L & F1 & F2 & (sm & E1) & (ss & E2 & _)) W C. unfold standardizer_transform. cbn [inj mcols mrows]. rewrite <- C, Nat.eqb_refl. cbn [negb].
  unfold map_rows, inj, std_units. cbn [mrows mcols]. do 2 f_equal. rewrite !map_map. apply map_ext_in. intros r Hr. rewrite E1, E2. cbn [real].
  unfold mwf in W. rewrite Forall_forall in W. specialize (W r Hr). apply std_row; auto. congruence.
Qed.

(** A fitted scaler is a change of units. *)
Theorem scaling_units A tr : mwf A -> fitted_scaling A tr -> exists ab, length ab = mcols A /\ Forall (fun t => fst t <> 0) ab /\
  forall n, mwf n -> mcols n = mcols A -> tr n = Ok (inj (map_rows (new_units ab) (mcols A) n)).
Proof.
  intros W [smin smax sc Hs Hr Hn E|smean sstd st Hs Hn Hv E].
  - destruct (minmax_fit_usable smin smax A sc Hs W Hr Hn E) as (U & L). destruct (mm_units_ok sc U) as (L1 & F). exists (mm_units sc). split; [congruence|]. split; [exact F|].
    intros n Wn C. rewrite <- C. apply mm_transform; auto. congruence.
  - destruct (std_fit_usable smean sstd A st Hs Hn Hv E) as (U & L). destruct (std_units_ok st U) as (L1 & F). exists (std_units st). split; [congruence|]. split; [exact F|].
    intros n Wn C. rewrite <- C. apply std_transform; auto. congruence.
Qed.
Lemma new_units_wf ab d n : mwf n -> mcols n = d -> mwf (map_rows (new_units ab) d n).
Proof.
  intros W C. unfold mwf, map_rows in *. cbn. apply Forall_map. eapply Forall_impl; [|exact W]. cbn. intros r Hr. unfold new_units. rewrite map_length, seq_length. congruence.
Qed.
Theorem scaling_total A tr : mwf A -> fitted_scaling A tr -> forall n, mwf n -> mcols n = mcols A ->
  exists n', tr n = Ok (inj n') /\ mwf n' /\ nrows n' = nrows n /\ mcols n' = mcols n.
Proof.
  intros W H n Wn C. destruct (scaling_units A tr W H) as (ab & L & F & E). eexists. split; [apply E; auto|]. split; [apply new_units_wf; auto|].
  unfold nrows, map_rows. cbn. now rewrite map_length.
Qed.

Theorem scaled_linreg solve solve' s s' A tr y Z A' Z' m m' : solver_sound solve -> solver_sound solve' -> mwf A -> mwf Z -> mcols Z = mcols A ->
  fitted_scaling A tr -> tr A = Ok (inj A') -> tr Z = Ok (inj Z') -> Forall (determined A) (mrows Z) ->
  lr_train solve s A y = (m, Ok tt) -> lr_train solve' s' A' y = (m', Ok tt) ->
  exists out, lr_predict m Z = Ok out /\ lr_predict m' Z' = Ok out.
Proof.
  intros S S' W WZ C H EA EZ D T T'. destruct (scaling_units A tr W H) as (ab & L & F & E). rewrite E in EA, EZ by auto.
  apply ok_inj in EA, EZ. subst A' Z'.
  exact (lr_features solve solve' s s' (new_units ab) (mcols A) A y Z m m' S S' W WZ C (units_affine _ ab L F) D T T').
Qed.
Theorem scaled_glm inverse inverse' s s' A tr y Z A' Z' m m' : inverse_sound inverse -> inverse_sound inverse' -> mwf A -> mwf Z -> mcols Z = mcols A ->
  fitted_scaling A tr -> tr A = Ok (inj A') -> tr Z = Ok (inj Z') -> Forall (determined A) (mrows Z) ->
  glm_train inverse Normal s A y = (m, Ok tt) -> glm_train inverse' Normal s' A' y = (m', Ok tt) ->
  exists out, glm_predict Normal m Z = Ok out /\ glm_predict Normal m' Z' = Ok out.
Proof.
  intros S S' W WZ C H EA EZ D T T'. destruct (scaling_units A tr W H) as (ab & L & F & E). rewrite E in EA, EZ by auto.
  apply ok_inj in EA, EZ. subst A' Z'.
  exact (glm_features inverse inverse' s s' (new_units ab) (mcols A) A y Z m m' S S' W WZ C (units_affine _ ab L F) D T T').
Qed.
Lemma units_in_units ab n : mwf n -> length ab = mcols n -> in_units (fun j => fst (nth j ab (0, 0))) (fun j => snd (nth j ab (0, 0))) n (map_rows (new_units ab) (mcols n) n).
Proof.
  intros W L. split; [split; [apply new_units_wf; auto|unfold nrows, map_rows; cbn; now rewrite map_length]|].
  intros i j Hi Hj. unfold entry, map_rows. cbn [mrows]. unfold nrows in Hi. unfold mwf in W. rewrite Forall_forall in W.
  pose proof (W _ (nth_In _ [] Hi)) as Lr. rewrite (nth_indep _ [] (new_units ab [])) by (now rewrite map_length). rewrite map_nth.
  unfold new_units at 1. rewrite Lr, seq_map_nth by auto. reflexivity.
Qed.
Theorem scaled_bayes A T M cs tr A' M' : classified A T M cs -> gauss_ready A cs (mcols T) -> mwf A ->
  fitted_scaling A tr -> tr A = Ok (inj A') -> tr M = Ok (inj M') ->
  forall m1 m2, exists out, answers Gaussian m1 A T M out /\ answers Gaussian m2 A' T M' out.
Proof.
  intros Cl G W H EA EM. destruct Cl as (c1 & c2 & c3 & c4 & c5 & WM & CM). destruct (scaling_units A tr W H) as (ab & L & F & E). rewrite E in EA, EM by auto.
  apply ok_inj in EA, EM. subst A' M'.
  apply (gauss_units A _ T M _ cs (fun j => fst (nth j ab (0, 0))) (fun j => snd (nth j ab (0, 0)))); auto.
  - repeat split; auto.
  - intros j Hj. rewrite Forall_forall in F. apply F, nth_In. lia.
  - apply units_in_units; auto.
  - rewrite <- CM. apply units_in_units; congruence.
Qed.
