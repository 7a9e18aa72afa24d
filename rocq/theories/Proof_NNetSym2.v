(** Lemmas for [Props_NNetSym]: costs, gradients and training after relabelling. *)
From Coq Require Import List Arith Lia Bool Permutation Reals Lra FunctionalExtensionality.
From Verif Require Import Base BaseLemmas Num NumFn Linalg LinalgR Spec_Calc CalcR MatR Model_Rand Model_Toolkit Model_Optim Model_Cost Model_CG
  Model_Regression Model_NNet Spec_Cost Spec_NNet Spec_OptEq Spec_KerInv Spec_DBSCAN2 Proof_KMeans Proof_Toolkit Proof_Cost Proof_Equiv Proof_NNet Proof_NNet2 Proof_NNet3 Proof_NNet4 Proof_NNet5
  Proof_KerInv Proof_OptEq Proof_OptEq2 Spec_NNetSym Proof_NNetSym.
Import ListNotations.
Local Open Scope R_scope.

Lemma arr_perm n pi (v : list R) : Permutation pi (seq 0 n) -> length v = n -> Permutation (arrange pi v) v.
Proof.
  intros H L. unfold arrange. rewrite (Permutation_map _ H). replace (map (fun k => nth k v nzero) (seq 0 n)) with v; [reflexivity|].
  apply (nth_ext _ _ 0 0); [now rewrite map_length, seq_length|]. intros k Hk. rewrite nth_map_seq by lia. reflexivity.
Qed.
Lemma arr_vset n pi (w : list R) q x : Permutation pi (seq 0 n) -> length w = n -> (q < n)%nat ->
  arrange pi (vset w (nth q pi 0%nat) x) = vset (arrange pi w) q x.
Proof.
  intros H L Hq. pose proof (Permutation_length H) as Lp. rewrite seq_length in Lp.
  apply (nth_ext _ _ 0 0); [rewrite vset_length, !(arr_len n pi H); reflexivity|]. rewrite (arr_len n pi H). intros k Hk. rewrite arr_nthR by lia.
  assert (Hb : (nth q pi 0 < n)%nat) by (apply (arr_in n pi H), nth_In; lia).
  destruct (Nat.eq_dec k q) as [->|Ne]; [rewrite !vset_nth_same; rewrite ?(arr_len n pi H); auto; lia|].
  rewrite !vset_nth_other; auto; [now rewrite arr_nthR by lia|]. intros E. apply Ne.
  assert (ND : NoDup pi) by (apply (Permutation_NoDup (Permutation_sym H)), seq_NoDup). apply (proj1 (NoDup_nth pi 0%nat) ND); auto; lia.
Qed.

(** ** Costs *)
Definition arr_rows (c : nat) (o : list nat) (Y : matrix R) : matrix R := map_rows c (arrange o) Y.
Lemma arr_rows_shape n c o Y : Permutation o (seq 0 c) -> shape Y n c -> shape (arr_rows c o Y) n c.
Proof.
  intros H (W & Rr & C). split; [|split; [unfold nrows, arr_rows, map_rows; cbn [mrows]; now rewrite map_length|reflexivity]].
  apply Forall_map. apply Forall_forall. intros r _. apply arr_len, H.
Qed.
Lemma arr_rows_entry n c o Y i j : Permutation o (seq 0 c) -> shape Y n c -> (i < n)%nat -> (j < c)%nat -> entry (arr_rows c o Y) i j = entry Y i (nth j o 0%nat).
Proof.
  intros H (W & Rr & C) Hi Hj. unfold entry, arr_rows, map_rows. cbn [mrows]. rewrite (nth_map (arrange o) (mrows Y) i [] []) by (unfold nrows in Rr; lia).
  apply arr_nthR. now rewrite (Permutation_length H), seq_length.
Qed.
Lemma sum_entries_arr n c o (f : R -> R -> R) Y T : Permutation o (seq 0 c) -> shape Y n c -> shape T n c ->
  sum_entries n c (fun i j => f (entry (arr_rows c o Y) i j) (entry (arr_rows c o T) i j)) = sum_entries n c (fun i j => f (entry Y i j) (entry T i j)).
Proof.
  intros H SY ST. unfold sum_entries. apply sumR_ext. intros i Hi. rewrite <- (sumR_perm o c (fun j => f (entry Y i j) (entry T i j)) H).
  apply sumR_ext. intros j Hj. now rewrite !(arr_rows_entry n c o) by auto.
Qed.
Lemma cost_arr cr r n c o Y T : Permutation o (seq 0 c) -> shape Y n c -> shape T n c -> cr = MSECriterion r \/ cr = BCECriterion r ->
  cr_cost cr (arr_rows c o Y) (arr_rows c o T) = cr_cost cr Y T.
Proof.
  intros H SY ST HC. pose proof (arr_rows_shape n c o Y H SY) as SY'. pose proof (arr_rows_shape n c o T H ST) as ST'.
  pose proof (same_shape_of Y T n c SY (proj1 (proj2 ST)) (proj2 (proj2 ST))) as E. pose proof (same_shape_of _ _ n c SY' (proj1 (proj2 ST')) (proj2 (proj2 ST'))) as E'.
  destruct HC as [-> | ->]; cbn [MSECriterion BCECriterion cr_cost].
  - rewrite !mse_cost_entries by (try apply SY; try apply ST; try apply SY'; try apply ST'; auto). destruct SY as (? & R1 & C1), SY' as (? & R2 & C2). rewrite R1, C1, R2, C2. do 2 f_equal.
    apply (sum_entries_arr n c o (fun y t => (y - t) ^ 2)); auto. split; auto.
  - rewrite !ce_cost_entries by (try apply SY; try apply ST; try apply SY'; try apply ST'; auto). f_equal. unfold cross_entropy. pose proof (sum_entries_arr n c o ce_entry Y T H SY ST) as K.
    destruct SY as (? & R1 & C1), SY' as (? & R2 & C2). rewrite R1, C1, R2, C2. do 2 f_equal. exact K.
Qed.

(** ** Regularisation *)
Lemma reg_cost_arr r n pi (w : list R) : Permutation pi (seq 0 n) -> length w = n -> reg_cost r (as_column (arrange pi w)) = reg_cost r (as_column w).
Proof.
  intros H L. pose proof (arr_len n pi H w) as L'.
  assert (NR : nrows (as_column (arrange pi w)) = nrows (as_column w)) by (unfold nrows, as_column; cbn [mrows]; rewrite !map_length; lia).
  assert (P : forall f, msum (mmap f (as_column (arrange pi w))) = msum (mmap f (as_column w))).
  { intros f. rewrite !msum_R. change (as_column ?v) with (colm v). rewrite !colm_map, !colm_sum. rewrite <- (arr_map n pi H) by auto.
    apply fold_perm, (arr_perm n); auto. now rewrite map_length. }
  assert (Q : msum (mzip nmul (as_column (arrange pi w)) (as_column (arrange pi w))) = msum (mzip nmul (as_column w) (as_column w))).
  { rewrite !msum_R. change (as_column ?v) with (colm v). rewrite !colm_zip, !colm_sum. rewrite <- (arr_map2 n pi H) by auto.
    apply fold_perm, (arr_perm n); auto. rewrite map2_length. lia. }
  destruct r as [x|x|x y|]; cbn [reg_cost]; unfold l1_reg_cost, l2_reg_cost, l1_norm, fro_norm, two_rows; rewrite ?NR, ?P, ?Q; reflexivity.
Qed.
Lemma column_entry f (w : list R) q : (q < length w)%nat -> entry (mmap f (as_column w)) q 0 = f (nth q w 0).
Proof. intros H. unfold entry, mmap, as_column. cbn [mrows]. rewrite map_map. cbn [map]. now rewrite (nth_map _ _ _ _ 0) by exact H. Qed.
Lemma reg_grad_arr r n pi (w : list R) q : Permutation pi (seq 0 n) -> length w = n -> (q < n)%nat ->
  entry (reg_grad r (as_column (arrange pi w))) q 0 = entry (reg_grad r (as_column w)) (nth q pi 0%nat) 0.
Proof.
  intros H L Hq. pose proof (arr_len n pi H w) as L'. pose proof (Permutation_length H) as Lp. rewrite seq_length in Lp.
  assert (Hb : (nth q pi 0 < n)%nat) by (apply (arr_in n pi H), nth_In; lia).
  assert (NR : nrows (as_column (arrange pi w)) = nrows (as_column w)) by (unfold nrows, as_column; cbn [mrows]; rewrite !map_length; lia).
  assert (SM : forall f v, length v = n -> shape (mmap f (as_column v)) n 1).
  { intros f v Lv. change (as_column v) with (colm v). split; [apply mwf_mmap, colm_wf|]. rewrite nrows_mmap, colm_nrows. auto. }
  assert (E : forall f, entry (mmap f (as_column (arrange pi w))) q 0 = entry (mmap f (as_column w)) (nth q pi 0%nat) 0).
  { intros f. rewrite !column_entry by lia. now rewrite arr_nthR by lia. }
  destruct r as [x|x|x y|]; cbn [reg_grad]; unfold l1_reg_grad, l2_reg_grad, two_rows; rewrite ?NR; try apply E.
  match goal with |- context [mzip nadd (mmap ?f _) (mmap ?g _)] => destruct (SM f w L) as (W1 & R1 & C1), (SM g w L) as (W2 & R2 & C2), (SM f _ L') as (W3 & R3 & C3), (SM g _ L') as (W4 & R4 & C4) end.
  rewrite !mzip_entry by (auto; lia). now rewrite !E.
Qed.

(** ** Predictions, gradients *)
Section Net.
  Variables (net : BaseNeuralNet R) (ks : list (LayerKind R)) (r : Regularization R) (p : list nat) (qs : list (list nat)) (d c : nat).
  Hypothesis HL : nn_layers net = map to_layer ks.
  Hypothesis Hp : Permutation p (seq 0 d).
  Hypothesis Hf : orders_fit ks qs.
  Hypothesis Hw : widths ks d = Some c.
  Let wo := weight_order ks p qs.
  Let oo := output_order ks p qs.
  Lemma Pwo : Permutation wo (seq 0 (total_params ks)). Proof. apply (weight_order_perm ks p qs d c); auto. Qed.
  Lemma Poo : Permutation oo (seq 0 c). Proof. apply (weight_order_perm ks p qs d c); auto. Qed.

  Lemma predict_arr w X : length w = total_params ks -> mwf X -> mcols X = d ->
    exists Y, net_predict (set_weights net w) X = Ok Y /\ shape Y (nrows X) c /\
      net_predict (set_weights net (arrange wo w)) (arr_rows d p X) = Ok (arr_rows c oo Y).
  Proof.
    intros Lw W C. destruct (arr_rows_shape (nrows X) d p X Hp) as (W' & R' & C'); [split; auto|]. assert (HwX : widths ks (mcols X) = Some c) by now rewrite C.
    assert (HwX' : widths ks (mcols (arr_rows d p X)) = Some c) by now rewrite C'.
    exists (Mat (map (net_row ks w) (mrows X)) c). rewrite (predict_rows (set_weights net w) ks X c) by auto.
    rewrite (predict_rows (set_weights net (arrange wo w)) ks _ c); auto; [|cbn [nn_weights set_weights]; apply arr_len, Pwo].
    split; [reflexivity|]. split.
    - destruct (predict_fits (set_weights net w) ks X c) as (E & S1 & S2 & S3); auto. rewrite (predict_rows (set_weights net w) ks X c) in E by auto. cbn [nn_weights set_weights] in E. apply Ok_inj in E.
      cbn [nn_weights set_weights] in *. rewrite E. split; auto.
    - f_equal. unfold arr_rows, map_rows. cbn [mrows nn_weights set_weights]. rewrite !map_map. f_equal. apply map_ext_in. intros x Hx.
      apply (net_row_arrange ks w x p qs d c); auto. unfold mwf in W. rewrite Forall_forall, C in W. now apply W.
  Qed.
  Hypothesis HC : proper_criterion net ks r.
  Lemma proper_cr : nn_criterion net = MSECriterion r \/ nn_criterion net = BCECriterion r.
  Proof. destruct HC as [E|[E _]]; auto. Qed.
  Lemma data_cost_arr w X T : length w = total_params ks -> mwf X -> mcols X = d -> shape T (nrows X) c ->
    data_cost net (arr_rows d p X) (arr_rows c oo T) (arrange wo w) = data_cost net X T w.
  Proof.
    intros Lw W C ST. destruct (predict_arr w X Lw W C) as (Y & E & SY & E'). unfold data_cost. rewrite E, E'. cbn [rbind].
    apply (cost_arr _ r (nrows X)); auto using Poo, proper_cr.
  Qed.
  Lemma proper_between w X : length w = total_params ks -> mwf X -> mcols X = d ->
    nn_criterion net = MSECriterion r \/ (nn_criterion net = BCECriterion r /\ outputs_between net w X).
  Proof.
    intros Lw W C. destruct HC as [E|[E (ks0 & K)]]; [now left|right]. split; [exact E|]. intros Y EY i j Hi Hj.
    destruct (predict_fits (set_weights net w) ks X c) as (E' & S1 & S2 & S3); auto; [now rewrite C|]. cbn [nn_weights set_weights] in *. rewrite E' in EY. apply Ok_inj in EY. subst Y. subst ks.
    rewrite widths_app in Hw. destruct (widths ks0 d) as [c0|] eqn:E0; [|discriminate].
    rewrite total_app in Lw. assert (E0X : widths ks0 (mcols X) = Some c0) by now rewrite C.
    destruct (forward_rest_ok ks0 w 0 X c0 W ltac:(lia) E0X) as (_ & W1 & _ & _).
    apply (sigmoid_last ks0 w 0 X i j); auto.
  Qed.
  Hypothesis Sm : Forall smooth_kind ks.
  Hypothesis Ne : ks <> [].
  Lemma grad_arr w X T : length w = total_params ks -> mwf X -> mcols X = d -> (0 < nrows X)%nat -> shape T (nrows X) c ->
    exists cost g, net_compute_grad net w X T = Ok (cost, g) /\ length g = total_params ks /\
      net_compute_grad net (arrange wo w) (arr_rows d p X) (arr_rows c oo T) = Ok (cost, arrange wo g).
  Proof.
    intros Lw W C Hn ST. pose proof Pwo as HP. set (n := total_params ks) in *.
    destruct (arr_rows_shape (nrows X) d p X Hp) as (W' & R' & C'); [split; auto|].
    destruct (arr_rows_shape (nrows X) c oo T Poo ST) as (WT' & RT' & CT'). assert (Lw' : length (arrange wo w) = n) by (apply arr_len, HP).
    destruct (gradient_times_rows net ks w X T c r) as (dc & g & E1 & E2 & Lg & HG); auto; try apply ST; try (now rewrite C); try (now apply proper_between).
    destruct (gradient_times_rows net ks (arrange wo w) (arr_rows d p X) (arr_rows c oo T) c r) as (dc' & g' & E1' & E2' & Lg' & HG'); auto;
      try (now rewrite C'); try (now apply proper_between); try lia.
    rewrite data_cost_arr in E1' by auto. rewrite E1 in E1'. apply Ok_inj in E1'. subst dc'.
    exists (dc + reg_cost r (as_column w)), g. split; [exact E2|]. split; [lia|]. rewrite E2'. do 2 f_equal.
    - f_equal. now apply (reg_cost_arr r n).
    - apply (nth_ext _ _ 0 0); [rewrite (arr_len n wo HP); lia|]. rewrite Lg', Lw'. intros q Hq.
      assert (Lo : length wo = n) by (rewrite (Permutation_length HP); apply seq_length).
      assert (Hb : (nth q wo 0 < n)%nat) by (apply (arr_in n wo HP), nth_In; lia).
      rewrite arr_nthR by lia. destruct (HG' q ltac:(lia)) as (e' & D' & ->). destruct (HG (nth q wo 0%nat) ltac:(lia)) as (e & D & ->).
      rewrite (reg_grad_arr r n wo w q HP Lw Hq), R'. f_equal. f_equal.
      apply (has_partial_vec_unique _ _ _ _ _ D'). destruct D as (f & F1 & F2). exists f. split.
      + intros x. rewrite <- F1. rewrite <- (arr_vset n wo w q x HP Lw Hq). apply data_cost_arr; auto. now rewrite vset_length.
      + now rewrite arr_nthR by lia.
  Qed.
  Lemma one_row_arr m o n X i : shape X n m -> one_row (arr_rows m o X) i = let? x := one_row X i in Ok (arr_rows m o x).
  Proof.
    intros _. unfold one_row, ridx, arr_rows, map_rows. cbn [mrows mcols]. rewrite nth_error_map. destruct (nth_error (mrows X) i); reflexivity.
  Qed.
  Lemma one_row_shape n m X i x : shape X n m -> one_row X i = Ok x -> shape x 1 m.
  Proof.
    intros (W & _ & C). unfold one_row, ridx. destruct (nth_error (mrows X) i) as [v|] eqn:E; [|discriminate]. cbn [rbind]. intros K. apply Ok_inj in K. subst x.
    split; [|split; [reflexivity|exact C]]. constructor; [|constructor]. unfold mwf in W. rewrite Forall_forall in W. apply W. eapply nth_error_In; eauto.
  Qed.
  Theorem train_arr opt w X T : crate_optimiser opt -> length w = total_params ks -> mwf X -> mcols X = d -> (0 < nrows X)%nat -> shape T (nrows X) c ->
    opt (net_compute_grad net) (arrange wo w) (arr_rows d p X) (arr_rows c oo T) = let! v := opt (net_compute_grad net) w X T in RRet (arrange wo v).
  Proof.
    intros HO Lw W C Hn ST. pose proof Pwo as HP.
    assert (SX : shape X (nrows X) d) by (split; auto).
    assert (CR : carried (total_params ks) (arrange wo) (fun w => net_compute_grad net w X T) (fun w => net_compute_grad net w (arr_rows d p X) (arr_rows c oo T))).
    { intros v Lv. destruct (grad_arr v X T Lv W C Hn ST) as (cost & g & E & Lg & E'). exists cost, g. auto. }
    assert (RR : carried_rows (total_params ks) (arrange wo) (net_compute_grad net) (net_compute_grad net) X (arr_rows d p X) T (arr_rows c oo T)).
    { split; [apply (arr_rows_shape (nrows X) d p X Hp SX)|]. intros i v Lv. unfold at_row. rewrite (one_row_arr d p _ X i SX), (one_row_arr c oo _ T i ST).
      destruct (one_row X i) as [x|e|] eqn:Ex; cbn [rbind]; [|split; [reflexivity|discriminate]..].
      destruct (one_row T i) as [t|e|] eqn:Et; cbn [rbind]; [|split; [reflexivity|discriminate]..].
      pose proof (one_row_shape _ _ _ _ _ SX Ex) as (Wx & Rx & Cx). pose proof (one_row_shape _ _ _ _ _ ST Et) as St.
      destruct (grad_arr v x t Lv Wx Cx) as (cost & g & E & Lg & E'); [lia|now rewrite Rx|]. rewrite E, E'. cbn [rbind]. split; [reflexivity|]. intros c0 g0 K. apply Ok_inj in K. congruence. }
    destruct HO as [self|self|self|self|self].
    - unfold gd_as_optimizer. destruct (gd_arrange R NumR _ wo self _ _ w HP CR Lw) as (v & E & _ & E'). rewrite E, E'. reflexivity.
    - cbn beta. assert (RG : rigid (total_params ks) (total_params ks) (arrange wo)) by exact (reordered_rigid _ wo HP). destruct (cg_rigid _ _ _ RG _ _ CR self w Lw) as (E & _). rewrite E. destruct (cg_optimize self _ w); reflexivity.
    - exact (proj1 (stoch_arrange R NumR _ wo _ _ _ _ _ _ w HP RR Lw) self).
    - exact (proj1 (proj2 (stoch_arrange R NumR _ wo _ _ _ _ _ _ w HP RR Lw)) self).
    - exact (proj2 (proj2 (stoch_arrange R NumR _ wo _ _ _ _ _ _ w HP RR Lw)) self).
  Qed.
End Net.
