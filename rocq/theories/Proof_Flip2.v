(** Lemmas for [Props_Flip]: costs, gradients and training after changing signs. *)
From Coq Require Import List Arith Lia Bool Reals Lra FunctionalExtensionality.
From Verif Require Import Base BaseLemmas Num NumFn Linalg LinalgR Spec_Calc CalcR MatR Model_Rand Model_Toolkit Model_Optim Model_Cost Model_CG
  Model_Regression Model_NNet Spec_Cost Spec_NNet Spec_OptEq Spec_KerInv Spec_DBSCAN2 Proof_KMeans Proof_Toolkit Proof_Cost Proof_Equiv Proof_NNet Proof_NNet2 Proof_NNet3 Proof_NNet4 Proof_NNet5
  Proof_KerInv Proof_OptEq Proof_OptEq2 Spec_NNetSym Proof_NNetSym Proof_NNetSym2 Spec_Flip Proof_Flip.
Import ListNotations.
Local Open Scope R_scope.

Lemma dlim_scaled f s x e : derivable_pt_lim f (s * x) e -> derivable_pt_lim (fun y => f (s * y)) x (s * e).
Proof.
  intros H. replace (s * e) with (e * (s * 1)) by ring. apply (derivable_pt_lim_comp (fun y => s * y) f); [|exact H].
  apply (derivable_pt_lim_scal (fun y => y) s x 1), derivable_pt_lim_id.
Qed.
Lemma flip_vset bs w q x : length bs = length w -> (q < length w)%nat -> flipped bs (vset w q x) = vset (flipped bs w) q (sg (nth q bs false) * x).
Proof.
  intros L Hq. apply flip_ext; rewrite !vset_length; auto; [now apply flip_len|]. intros k Hk. destruct (Nat.eq_dec k q) as [->|Ne].
  - rewrite !vset_nth_same; auto. now rewrite flip_len.
  - rewrite !vset_nth_other; auto. now apply flip_nth.
Qed.
Lemma flip_rigid bs n : length bs = n -> rigid n n (flipped bs).
Proof.
  intros L a b La Lb. split; [rewrite flip_len; lia|]. unfold inner. apply sumR_ext. intros k Hk. rewrite !flip_nth by lia. pose proof (sg_sq (nth k bs false)) as S.
  transitivity (sg (nth k bs false) * sg (nth k bs false) * (nth k a 0 * nth k b 0)); [ring|]. rewrite S. ring.
Qed.

(** ** Costs *)
Lemma flip_rows_shape n c bs Y : length bs = c -> shape Y n c -> shape (flip_rows bs Y) n c.
Proof.
  intros H (W & Rr & C). split; [|split; [unfold nrows, flip_rows; cbn [mrows]; now rewrite map_length|exact C]].
  apply Forall_map. eapply Forall_impl; [|exact W]. cbn. intros v Lv. rewrite flip_len; lia.
Qed.
Lemma flip_rows_entry n c bs Y i j : length bs = c -> shape Y n c -> (i < n)%nat -> entry (flip_rows bs Y) i j = sg (nth j bs false) * entry Y i j.
Proof.
  intros H (W & Rr & C) Hi. unfold entry, flip_rows. cbn [mrows]. rewrite (nth_map (flipped bs) (mrows Y) i [] []) by (unfold nrows in Rr; lia).
  apply flip_nth. unfold mwf in W. rewrite Forall_forall in W. rewrite W; [lia|]. apply nth_In. unfold nrows in Rr. lia.
Qed.
Lemma mse_flip r n c bs Y T : length bs = c -> shape Y n c -> shape T n c ->
  cr_cost (MSECriterion r) (flip_rows bs Y) (flip_rows bs T) = cr_cost (MSECriterion r) Y T.
Proof.
  intros H SY ST. pose proof (flip_rows_shape n c bs Y H SY) as SY'. pose proof (flip_rows_shape n c bs T H ST) as ST'.
  pose proof (same_shape_of Y T n c SY (proj1 (proj2 ST)) (proj2 (proj2 ST))) as E. pose proof (same_shape_of _ _ n c SY' (proj1 (proj2 ST')) (proj2 (proj2 ST'))) as E'.
  cbn [MSECriterion cr_cost].
  rewrite !mse_cost_entries by (try apply SY; try apply ST; try apply SY'; try apply ST'; auto). destruct SY as (WY & R1 & C1), SY' as (? & R2 & C2). rewrite R1, C1, R2, C2. do 2 f_equal.
  unfold sum_entries. apply sumR_ext. intros i Hi. apply sumR_ext. intros j Hj. rewrite (flip_rows_entry n c bs Y), (flip_rows_entry n c bs T) by (auto; split; auto).
  destruct (nth j bs false); cbn [sg]; ring.
Qed.
Lemma flip_rows_none n c bs Y : length bs = c -> shape Y n c -> ~ In true bs -> flip_rows bs Y = Y.
Proof.
  intros H (W & Rr & C) HN. destruct Y as [rows m]. unfold flip_rows. cbn [mrows mcols] in *. f_equal. rewrite <- map_id. apply map_ext_in. intros v Hv. apply flip_none; auto.
  unfold mwf in W. rewrite Forall_forall in W. rewrite W; cbn; auto. lia.
Qed.
Lemma sigmoid_signs ks0 : forall p ss, signs_fit (ks0 ++ [KActiv Sigmoid]) p ss -> ~ In true (output_signs (ks0 ++ [KActiv Sigmoid]) p ss).
Proof.
  induction ks0 as [|[i o b|a] ks IH]; intros p ss Hf; cbn [app signs_fit output_signs] in *.
  - destruct Hf as ([Ho|Ho] & _); [|exact Ho]. exfalso. specialize (Ho 0). cbn [Sigmoid af] in Ho. rewrite Ropp_0 in Ho.
    pose proof (sigmoid_range 0). lra.
  - apply IH, Hf.
  - apply IH, Hf.
Qed.

(** ** Regularisation *)
Lemma reg_cost_flip r bs (w : list R) : length bs = length w -> even_reg r -> reg_cost r (as_column (flipped bs w)) = reg_cost r (as_column w).
Proof.
  intros L HR. pose proof (flip_len bs w L) as L'.
  assert (NR : nrows (as_column (flipped bs w)) = nrows (as_column w)) by (unfold nrows, as_column; cbn [mrows]; rewrite !map_length; lia).
  assert (Q : msum (mzip nmul (as_column (flipped bs w)) (as_column (flipped bs w))) = msum (mzip nmul (as_column w) (as_column w))).
  { rewrite !msum_R. change (as_column ?v) with (colm v). rewrite !colm_zip, !colm_sum. f_equal.
    clear NR L'. revert w L. unfold flipped. induction bs as [|b bs IH]; intros [|x w] L; try discriminate; [reflexivity|]. cbn [map2]. f_equal; [destruct b; cbn; lra|]. apply IH. cbn in L. lia. }
  destruct r as [x|x|x y|]; cbn [reg_cost even_reg] in *; try contradiction; unfold l2_reg_cost, fro_norm, two_rows; rewrite ?NR, ?Q; reflexivity.
Qed.
Lemma reg_grad_flip r bs (w : list R) q : length bs = length w -> even_reg r -> (q < length w)%nat ->
  entry (reg_grad r (as_column (flipped bs w))) q 0 = sg (nth q bs false) * entry (reg_grad r (as_column w)) q 0.
Proof.
  intros L HR Hq. pose proof (flip_len bs w L) as L'.
  assert (NR : nrows (as_column (flipped bs w)) = nrows (as_column w)) by (unfold nrows, as_column; cbn [mrows]; rewrite !map_length; lia).
  destruct r as [x|x|x y|]; cbn [reg_grad even_reg] in *; try contradiction; unfold l2_reg_grad; rewrite ?NR; rewrite !column_entry by lia; [|cbn; ring].
  rewrite flip_nth by auto. cbn. ring.
Qed.

(** ** Stochastic optimisers whose state is changed differently *)
Section Stoch2.
  Variables (n : nat) (T U : list R -> list R) (cg cg' : list R -> matrix R -> matrix R -> res (R * list R)) (inputs inputs' targets targets' : matrix R).
  Variable step : ostate R -> list R -> res (ostate R).
  Hypothesis Hcg : carried_rows n T cg cg' inputs inputs' targets targets'.
  Hypothesis Hstep : forall w a g, length w = n -> length a = n -> length g = n ->
    exists w' a', step (w, a) g = Ok (w', a') /\ length w' = n /\ length a' = n /\ step (T w, U a) (T g) = Ok (T w', U a').

  Definition TUst (st : ostate R) : ostate R := (T (fst st), U (snd st)).
  Lemma pass_carried2 : forall perm st c, length (fst st) = n -> length (snd st) = n ->
    stoch_pass cg' step inputs' targets' perm (TUst st) c = (let? (st', c') := stoch_pass cg step inputs targets perm st c in Ok (TUst st', c')) /\
    forall st' c', stoch_pass cg step inputs targets perm st c = Ok (st', c') -> length (fst st') = n /\ length (snd st') = n.
  Proof.
    induction perm as [|i perm IH]; intros st c L1 L2.
    - cbn. split; [reflexivity|]. intros st' c' K. injection K as <- _. auto.
    - destruct Hcg as (_ & H). destruct (H i (fst st) L1) as (E & Lg). unfold at_row in E, Lg. cbn [stoch_pass].
      destruct (one_row inputs i) as [xi|e|], (one_row inputs' i) as [xi'|e'|]; cbn [rbind] in *; try discriminate; try (split; [congruence|discriminate]);
      destruct (one_row targets i) as [ti|e1|], (one_row targets' i) as [ti'|e1'|]; cbn [rbind] in *; try discriminate; try (split; [congruence|discriminate]);
      try (destruct (cg (fst st) xi ti) as [(c0 & g)|e2|]; cbn [rbind] in *; try discriminate; try (split; [congruence|discriminate]));
      try (change (fst (TUst st)) with (T (fst st)); rewrite E; cbn [rbind]; try (split; [congruence|discriminate])).
      all: try (injection E as ->; split; [reflexivity|discriminate]).
      specialize (Lg _ _ eq_refl). destruct (Hstep (fst st) (snd st) g L1 L2 Lg) as (w' & a' & Es & L3 & L4 & Es').
      destruct st as (w0 & a0). cbn [fst snd] in *. rewrite Es. unfold TUst at 1. cbn [fst snd]. rewrite Es'. cbn [rbind]. apply (IH (w', a')); auto.
  Qed.
  Lemma loop_carried2 : forall k perm st c, length (fst st) = n -> length (snd st) = n ->
    stoch_loop cg' step inputs' targets' k perm (TUst st) c = (let! w := stoch_loop cg step inputs targets k perm st c in RRet (T w)).
  Proof.
    induction k as [|k IH]; intros perm st c L1 L2; [reflexivity|]. cbn [stoch_loop]. rewrite rnd_bind_assoc.
    f_equal. apply functional_extensionality. intros perm'. destruct (pass_carried2 perm' st nzero L1 L2) as (E & L). rewrite E.
    destruct (stoch_pass cg step inputs targets perm' st nzero) as [(st' & c')|e|]; cbn [rbind rnd_res rnd_bind]; [|reflexivity|reflexivity].
    destruct (L _ _ eq_refl) as (L3 & L4). cbn [fst snd]. destruct Hcg as (-> & _).
    destruct (nltb _ _); [reflexivity|]. apply IH; auto.
  Qed.
  Lemma stoch_carried2 iters start : length start = n -> U (repeat nzero n) = repeat nzero (length (T start)) ->
    stoch_optimize cg' step inputs' targets' iters (T start) = (let! w := stoch_optimize cg step inputs targets iters start in RRet (T w)).
  Proof.
    intros L Z. unfold stoch_optimize. rewrite <- Z. rewrite L. destruct Hcg as (En & _). rewrite En.
    apply (loop_carried2 iters (seq 0 (nrows inputs)) (start, repeat nzero n) nzero); cbn [fst snd]; auto. apply repeat_length.
  Qed.
End Stoch2.

Section Signs.
  Variables (n : nat) (bs : list bool) (cg cg' : list R -> matrix R -> matrix R -> res (R * list R)) (inputs inputs' targets targets' : matrix R).
  Hypothesis Lb : length bs = n.
  Hypothesis Hcg : carried_rows n (flipped bs) cg cg' inputs inputs' targets targets'.
  Lemma flip_lenn v : length v = n -> length (flipped bs v) = n.
  Proof. intros L. rewrite flip_len; lia. Qed.
  Lemma sq_flip : forall bs' (f : R -> R -> R) (a g : list R), length bs' = length g -> (forall x y, f x (- y) = f x y) -> map2 f a (flipped bs' g) = map2 f a g.
  Proof.
    induction bs' as [|b l IH]; intros f [|x a] [|y g] L HF; try discriminate; try reflexivity. unfold flipped. cbn [map2]. f_equal; [destruct b; auto|]. apply IH; [cbn in L; lia|auto].
  Qed.
  Lemma lin_flip : forall bs' (f : R -> R -> R) (g a : list R), length bs' = length g -> (forall x y, f (- x) y = - f x y) -> map2 f (flipped bs' g) a = flipped bs' (map2 f g a).
  Proof.
    induction bs' as [|b l IH]; intros f [|y g] [|x a] L HF; try discriminate; try reflexivity. unfold flipped. cbn [map2]. f_equal; [destruct b; auto|]. apply IH; [cbn in L; lia|auto].
  Qed.
  Lemma sub_flip : forall bs' (u v : list R), vsub (flipped bs' u) (flipped bs' v) = flipped bs' (vsub u v).
  Proof. induction bs' as [|b l IH]; intros [|x u] [|y v]; try reflexivity. unfold flipped, vsub in *. cbn [map2]. f_equal; [destruct b; cbn; lra|]. apply IH. Qed.
  Lemma ada_flip self start : length start = n -> ada_optimize self cg' (flipped bs start) inputs' targets' = (let! w := ada_optimize self cg start inputs targets in RRet (flipped bs w)).
  Proof.
    intros L. apply (stoch_carried2 n (flipped bs) (fun a => a) cg cg' inputs inputs' targets targets' (ada_step self) Hcg); auto; [|now rewrite flip_lenn].
    intros w a g Lw La Lg. unfold ada_step, rassert. rewrite (flip_lenn g Lg), La, Lg, Nat.eqb_refl.
    rewrite (sq_flip bs (fun x y => (x + y * y)%num)) by (intros; try lia; cbn; ring).
    set (a' := map2 _ a g). assert (La' : length a' = n) by (unfold a'; rewrite map2_length; lia).
    rewrite (lin_flip bs (fun x y => (ada_alpha self * (x / (ada_tau self + nsqrt y)))%num)) by (intros; try lia; cbn; unfold Rdiv; ring).
    set (ch := map2 _ g a'). assert (Lc : length ch = n) by (unfold ch; rewrite map2_length; lia).
    rewrite (rvsub_any w) by lia. rewrite (rvsub_any (flipped bs w)) by (rewrite !flip_lenn; lia). cbn [rbind]. rewrite sub_flip.
    eexists _, _. split; [reflexivity|]. split; [unfold vsub; rewrite map2_length; lia|]. split; [exact La'|reflexivity].
  Qed.
  Lemma rms_flip self start : length start = n -> rms_optimize self cg' (flipped bs start) inputs' targets' = (let! w := rms_optimize self cg start inputs targets in RRet (flipped bs w)).
  Proof.
    intros L. apply (stoch_carried2 n (flipped bs) (fun a => a) cg cg' inputs inputs' targets targets' (rms_step self) Hcg); auto; [|now rewrite flip_lenn].
    intros w a g Lw La Lg. unfold rms_step.
    assert (E2 : map (fun x => (x * x)%num) (flipped bs g) = map (fun x => (x * x)%num) g).
    { assert (Lg' : length bs = length g) by lia. clear -Lg'. revert g Lg'. induction bs as [|b l IH]; intros [|y g] Lg'; try discriminate; [reflexivity|]. unfold flipped. cbn [map2 map].
      f_equal; [destruct b; cbn; ring|]. apply IH. cbn in Lg'. lia. }
    rewrite E2. rewrite rvadd_any by (unfold vscale; rewrite !map_length; lia). cbn [rbind].
    set (a' := vadd _ _). assert (La' : length a' = n) by (unfold a', vadd, vscale; rewrite map2_length, !map_length; lia).
    rewrite (lin_flip bs (fun x y => (x * rms_rate self / nsqrt (y + rms_epsilon self))%num)) by (intros; try lia; cbn; unfold Rdiv; ring).
    set (ch := map2 _ g a'). assert (Lc : length ch = n) by (unfold ch; rewrite map2_length; lia).
    rewrite (rvsub_any w) by lia. rewrite (rvsub_any (flipped bs w)) by (rewrite !flip_lenn; lia). cbn [rbind]. rewrite sub_flip.
    eexists _, _. split; [reflexivity|]. split; [unfold vsub; rewrite map2_length; lia|]. split; [exact La'|reflexivity].
  Qed.
End Signs.

(** ** Predictions, gradients *)
Section Net.
  Variables (net : BaseNeuralNet R) (ks : list (LayerKind R)) (r : Regularization R) (p : list bool) (ss : list (list bool)) (d c : nat).
  Hypothesis HL : nn_layers net = map to_layer ks.
  Hypothesis Hp : length p = d.
  Hypothesis Hf : signs_fit ks p ss.
  Hypothesis Hw : widths ks d = Some c.
  Let ws := weight_signs ks p ss.
  Let os := output_signs ks p ss.
  Lemma Lws : length ws = total_params ks. Proof. apply (signs_length ks p ss d c); auto. Qed.
  Lemma Los : length os = c. Proof. apply (signs_length ks p ss d c); auto. Qed.

  Lemma predict_flip w X : length w = total_params ks -> mwf X -> mcols X = d ->
    exists Y, net_predict (set_weights net w) X = Ok Y /\ shape Y (nrows X) c /\
      net_predict (set_weights net (flipped ws w)) (flip_rows p X) = Ok (flip_rows os Y).
  Proof.
    intros Lw W C. destruct (flip_rows_shape (nrows X) d p X Hp) as (W' & R' & C'); [split; auto|]. assert (HwX : widths ks (mcols X) = Some c) by now rewrite C.
    assert (HwX' : widths ks (mcols (flip_rows p X)) = Some c) by now rewrite C'.
    exists (Mat (map (net_row ks w) (mrows X)) c). rewrite (predict_rows (set_weights net w) ks X c) by auto.
    rewrite (predict_rows (set_weights net (flipped ws w)) ks _ c); auto; [|cbn [nn_weights set_weights]; rewrite flip_len; rewrite ?Lws; auto].
    split; [reflexivity|]. split.
    - destruct (predict_fits (set_weights net w) ks X c) as (E & S1 & S2 & S3); auto. rewrite (predict_rows (set_weights net w) ks X c) in E by auto. cbn [nn_weights set_weights] in E. apply Ok_inj in E.
      cbn [nn_weights set_weights] in *. rewrite E. split; auto.
    - f_equal. unfold flip_rows. cbn [mrows mcols nn_weights set_weights]. rewrite !map_map. f_equal. apply map_ext_in. intros x Hx.
      apply (net_row_flip ks w x p ss d c); auto. unfold mwf in W. rewrite Forall_forall, C in W. now apply W.
  Qed.
  Hypothesis HC : proper_criterion net ks r.
  Hypothesis HR : even_reg r.
  Lemma data_cost_flip w X T : length w = total_params ks -> mwf X -> mcols X = d -> shape T (nrows X) c ->
    data_cost net (flip_rows p X) (flip_rows os T) (flipped ws w) = data_cost net X T w.
  Proof.
    intros Lw W C ST. destruct (predict_flip w X Lw W C) as (Y & E & SY & E'). unfold data_cost. rewrite E, E'. cbn [rbind].
    destruct HC as [EC|[EC (ks0 & K)]]; rewrite EC; [now apply (mse_flip r (nrows X) c); auto using Los|].
    assert (HN : ~ In true os) by (unfold os; rewrite K in *; now apply sigmoid_signs).
    now rewrite !(flip_rows_none (nrows X) c) by auto using Los.
  Qed.
  Hypothesis Sm : Forall smooth_kind ks.
  Hypothesis Ne : ks <> [].
  Lemma orders_fit_nil (ks0 : list (LayerKind R)) : orders_fit ks0 [].
  Proof. induction ks0 as [|[i o b|a] ks0 IH]; cbn [orders_fit tl]; auto. Qed.
  Lemma grad_flip w X T : length w = total_params ks -> mwf X -> mcols X = d -> (0 < nrows X)%nat -> shape T (nrows X) c ->
    exists cost g, net_compute_grad net w X T = Ok (cost, g) /\ length g = total_params ks /\
      net_compute_grad net (flipped ws w) (flip_rows p X) (flip_rows os T) = Ok (cost, flipped ws g).
  Proof.
    intros Lw W C Hn ST. pose proof Lws as LW. set (n := total_params ks) in *.
    destruct (flip_rows_shape (nrows X) d p X Hp) as (W' & R' & C'); [split; auto|].
    destruct (flip_rows_shape (nrows X) c os T Los ST) as (WT' & RT' & CT'). assert (Lw' : length (flipped ws w) = n) by (rewrite flip_len; lia).
    destruct (gradient_times_rows net ks w X T c r) as (dc & g & E1 & E2 & Lg & HG); auto; try apply ST; try (now rewrite C); try (now apply (proper_between net ks r [] [] d c HL (orders_fit_nil ks) Hw HC)).
    destruct (gradient_times_rows net ks (flipped ws w) (flip_rows p X) (flip_rows os T) c r) as (dc' & g' & E1' & E2' & Lg' & HG'); auto;
      try (now rewrite C'); try (now apply (proper_between net ks r [] [] d c HL (orders_fit_nil ks) Hw HC)); try lia.
    rewrite data_cost_flip in E1' by auto. rewrite E1 in E1'. apply Ok_inj in E1'. subst dc'.
    exists (dc + reg_cost r (as_column w)), g. split; [exact E2|]. split; [lia|]. rewrite E2'. do 2 f_equal.
    - f_equal. apply reg_cost_flip; auto. lia.
    - symmetry. apply flip_ext; try lia. intros q Hq. destruct (HG' q ltac:(lia)) as (e' & D' & ->). destruct (HG q ltac:(lia)) as (e & D & ->).
      rewrite reg_grad_flip by (auto; lia). rewrite R'. rewrite Rmult_plus_distr_l. f_equal. set (s := sg (nth q ws false)). replace (s * (INR (nrows X) * e)) with (INR (nrows X) * (s * e)) by ring. f_equal.
      apply (has_partial_vec_unique _ _ _ _ _ D'). destruct D as (f & F1 & F2). exists (fun x => f (s * x)). split.
      + intros x. rewrite <- F1. assert (S : x = s * (s * x)) by (unfold s; rewrite <- Rmult_assoc, sg_sq; ring).
        rewrite S at 1. pose proof (flip_vset ws w q (s * x) ltac:(lia) ltac:(lia)) as FV. fold s in FV. rewrite <- FV. apply data_cost_flip; auto. now rewrite vset_length.
      + rewrite flip_nth by lia. fold s.
        apply dlim_scaled. replace (s * (s * nth q w 0)) with (nth q w 0) by (unfold s; rewrite <- Rmult_assoc, sg_sq; ring). exact F2.
  Qed.
  Lemma one_row_flip bs X i : one_row (flip_rows bs X) i = let? x := one_row X i in Ok (flip_rows bs x).
  Proof. unfold one_row, ridx, flip_rows. cbn [mrows mcols]. rewrite nth_error_map. destruct (nth_error (mrows X) i); reflexivity. Qed.
  Theorem train_flip opt w X T : crate_optimiser opt -> length w = total_params ks -> mwf X -> mcols X = d -> (0 < nrows X)%nat -> shape T (nrows X) c ->
    opt (net_compute_grad net) (flipped ws w) (flip_rows p X) (flip_rows os T) = let! v := opt (net_compute_grad net) w X T in RRet (flipped ws v).
  Proof.
    intros HO Lw W C Hn ST. pose proof Lws as LW.
    assert (SX : shape X (nrows X) d) by (split; auto).
    assert (CR : carried (total_params ks) (flipped ws) (fun w => net_compute_grad net w X T) (fun w => net_compute_grad net w (flip_rows p X) (flip_rows os T))).
    { intros v Lv. destruct (grad_flip v X T Lv W C Hn ST) as (cost & g & E & Lg & E'). exists cost, g. auto. }
    assert (RR : carried_rows (total_params ks) (flipped ws) (net_compute_grad net) (net_compute_grad net) X (flip_rows p X) T (flip_rows os T)).
    { split; [apply (flip_rows_shape (nrows X) d p X Hp SX)|]. intros i v Lv. unfold at_row. rewrite (one_row_flip p X i), (one_row_flip os T i).
      destruct (one_row X i) as [x|e|] eqn:Ex; cbn [rbind]; [|split; [reflexivity|discriminate]..].
      destruct (one_row T i) as [t|e|] eqn:Et; cbn [rbind]; [|split; [reflexivity|discriminate]..].
      pose proof (one_row_shape _ _ _ _ _ SX Ex) as (Wx & Rx & Cx). pose proof (one_row_shape _ _ _ _ _ ST Et) as St.
      destruct (grad_flip v x t Lv Wx Cx) as (cost & g & E & Lg & E'); [lia|now rewrite Rx|]. rewrite E, E'. cbn [rbind]. split; [reflexivity|]. intros c0 g0 K. apply Ok_inj in K. congruence. }
    pose proof (flip_rigid ws _ LW) as RG.
    destruct HO as [self|self|self|self|self].
    - unfold gd_as_optimizer. destruct (gd_rigid _ _ _ RG _ _ CR self w Lw) as (v & E & _ & E'). rewrite E, E'. reflexivity.
    - cbn beta. destruct (cg_rigid _ _ _ RG _ _ CR self w Lw) as (E & _). rewrite E. destruct (cg_optimize self _ w); reflexivity.
    - exact (sgd_rigid _ _ _ _ _ _ _ _ _ self w RG RR Lw).
    - exact (ada_flip _ ws _ _ _ _ _ _ LW RR self w Lw).
    - exact (rms_flip _ ws _ _ _ _ _ _ LW RR self w Lw).
  Qed.
  Lemma train_len opt w X T v : crate_optimiser opt -> length w = total_params ks -> mwf X -> mcols X = d -> (0 < nrows X)%nat -> shape T (nrows X) c ->
    outcome (opt (net_compute_grad net) w X T) (Some v) -> length v = total_params ks.
  Proof.
    intros HO Lw W C Hn ST Ho. destruct HO as [self|self|self|self|self]; [rewrite <- Lw; eapply gd_keeps; exact Ho| |rewrite <- Lw; eapply sgd_keeps; exact Ho|rewrite <- Lw; eapply ada_keeps; exact Ho|rewrite <- Lw; eapply rms_keeps; exact Ho].
    assert (CR : carried (total_params ks) (flipped ws) (fun w => net_compute_grad net w X T) (fun w => net_compute_grad net w (flip_rows p X) (flip_rows os T))).
    { intros u Lu. destruct (grad_flip u X T Lu W C Hn ST) as (cost & g & E & Lg & E'). exists cost, g. auto. }
    pose proof (cg_rigid _ _ _ (flip_rigid ws _ Lws) _ _ CR self w Lw) as (_ & K). cbn beta in Ho.
    destruct (cg_optimize self _ w) as [u|e|] eqn:E; cbn [rnd_res] in Ho; inversion Ho; subst. now apply K.
  Qed.
End Net.

