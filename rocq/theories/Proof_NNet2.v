(** * Forward propagation *)
From Coq Require Import List Arith Lia Bool Reals Lra.
From Verif Require Import Base BaseLemmas Num NumFn Linalg LinalgR Spec_Calc CalcR MatR Model_Toolkit Model_Optim
  Model_Regression Model_NNet Spec_NNet Proof_KMeans Proof_Toolkit Proof_NNet.
Import ListNotations.

Section Generic.
  Context {F : Type} {N : Num F} {NF : NumFn F}.

  Lemma mwf_mmap (f : F -> F) m : mwf m -> mwf (mmap f m).
  Proof. unfold mwf, mmap. cbn. intros H. apply Forall_map. eapply Forall_impl; [|exact H]. intros r E. cbn in *. rewrite map_length. exact E. Qed.
  Lemma nrows_mmap (f : F -> F) m : nrows (mmap f m) = nrows m.
  Proof. unfold nrows, mmap. cbn. apply map_length. Qed.
  Lemma mdata_mmap (f : F -> F) m : map f (mdata m) = mdata (mmap f m).
  Proof. unfold mdata, mmap. cbn. apply concat_map. Qed.
  Lemma mat_new_mdata (m : matrix F) : mwf m -> mat_new (nrows m) (mcols m) (mdata m) = Ok m.
  Proof. intros W. destruct m as [rows c]. apply mat_new_concat. exact W. Qed.
  Lemma activ_forward_ok a (X P : matrix F) : mwf X -> activ_forward a X P = Ok (mmap (af a) X).
  Proof.
    intros W. unfold activ_forward. rewrite mdata_mmap. rewrite <- (nrows_mmap (af a) X).
    change (mcols X) with (mcols (mmap (af a) X)). apply mat_new_mdata. apply mwf_mmap. exact W.
  Qed.

  Definition kshape (k : LayerKind F) : nat * nat := nl_param_shape (to_layer k).
  Lemma kparams_num k : kparams k = num_params (to_layer k).
  Proof. destruct k as [i o []|a]; unfold num_params; cbn; try reflexivity. rewrite Nat.add_1_r. reflexivity. Qed.
  Lemma total_num ks : total_params ks = list_sum (map num_params (map to_layer ks)).
  Proof. unfold total_params. rewrite map_map. f_equal. apply map_ext. apply kparams_num. Qed.

  (** Input extended for the bias, and the pure layer function. *)
  Definition kinput (b : bool) (X : matrix F) : matrix F := if b then with_ones X else X.
  Definition kforward (k : LayerKind F) (P X : matrix F) : matrix F :=
    match k with KLinear i o b => mat_mul (kinput b X) P | KActiv a => mmap (af a) X end.
  Definition kblock (k : LayerKind F) (w : list F) (idx : nat) : matrix F :=
    Mat (chunk (fst (kshape k)) (snd (kshape k)) (skipn idx w)) (snd (kshape k)).

  Lemma kblock_nrows k w idx : nrows (kblock k w idx) = fst (kshape k).
  Proof. apply chunk_len. Qed.
  Lemma kblock_wf k w idx : idx + kparams k <= length w -> mwf (kblock k w idx).
  Proof. intros H. apply chunk_wf. rewrite skipn_length. rewrite kparams_num in H. unfold num_params in H. unfold kshape. lia. Qed.
  Lemma wslice_kblock k w idx : idx + kparams k <= length w ->
    wslice w idx (fst (nl_param_shape (to_layer k))) (snd (nl_param_shape (to_layer k))) = Ok (kblock k w idx).
  Proof. intros H. apply wslice_ok. rewrite kparams_num in H. exact H. Qed.

  Lemma with_ones_wf' (X : matrix F) : mwf X -> mwf (with_ones X).
  Proof. unfold mwf, with_ones. cbn. intros H. apply Forall_map. eapply Forall_impl; [|exact H]. intros r E. cbn in *. congruence. Qed.
  Lemma kinput_wf b X : mwf X -> mwf (kinput b X).
  Proof. destruct b; [apply with_ones_wf'|auto]. Qed.
  Lemma kinput_nrows b X : nrows (kinput b X) = nrows X.
  Proof. destruct b; [|reflexivity]. apply map_length. Qed.
  Lemma kinput_mcols b X : mcols (kinput b X) = bias_rows b + mcols X.
  Proof. destruct b; reflexivity. Qed.

  Lemma forward_fits k (P X : matrix F) c : mwf X -> nrows P = fst (kshape k) -> mcols P = snd (kshape k) -> out_width k (mcols X) = Some c ->
    nl_forward (to_layer k) X P = Ok (kforward k P X) /\
    mwf (kforward k P X) /\ nrows (kforward k P X) = nrows X /\ mcols (kforward k P X) = c.
  Proof.
    intros W HP HC HW. destruct k as [i o b|a].
    - cbn in HW. destruct (Nat.eqb_spec (mcols X) i) as [E|]; [|discriminate]. injection HW as <-.
      assert (HP' : nrows P = bias_rows b + i) by (rewrite HP; destruct b; unfold kshape; cbn; lia).
      split; [|split; [apply mat_mul_wf|split; [|cbn; rewrite HC; unfold kshape; destruct b; reflexivity]]].
      + destruct b; cbn; unfold linear_forward; cbn; rewrite HP', E; cbn [bias_rows].
        * replace (i + 1 =? 1 + i) with true by (symmetry; apply Nat.eqb_eq; lia). cbn [negb].
          unfold rmat_mul. rewrite HP'. change (mcols (with_ones X)) with (S (mcols X)). rewrite E. cbn. rewrite Nat.eqb_refl. reflexivity.
        * rewrite Nat.eqb_refl. cbn [negb]. unfold rmat_mul. rewrite HP', E. cbn. rewrite Nat.eqb_refl. reflexivity.
      + cbn [kforward]. rewrite mat_mul_nrows. apply kinput_nrows.
    - cbn in HW. injection HW as <-. cbn. split; [apply activ_forward_ok; exact W|]. split; [apply mwf_mmap; exact W|].
      split; [apply nrows_mmap|reflexivity].
  Qed.
  Lemma forward_misfit k (P X : matrix F) : nrows P = fst (kshape k) -> out_width k (mcols X) = None ->
    nl_forward (to_layer k) X P = Err InvalidData.
  Proof.
    intros HP HW. destruct k as [i o b|a]; [|discriminate]. cbn in HW. destruct (Nat.eqb_spec (mcols X) i) as [|E]; [discriminate|].
    assert (HP' : nrows P = bias_rows b + i) by (rewrite HP; destruct b; unfold kshape; cbn; lia).
    destruct b; cbn; unfold linear_forward; cbn; rewrite HP'; cbn [bias_rows].
    - replace (mcols X + 1 =? 1 + i) with false by (symmetry; apply Nat.eqb_neq; lia). reflexivity.
    - replace (mcols X =? 0 + i) with false by (symmetry; apply Nat.eqb_neq; lia). reflexivity.
  Qed.

  Fixpoint net_fwd (ks : list (LayerKind F)) (w : list F) (idx : nat) (X : matrix F) : matrix F :=
    match ks with [] => X | k :: ks' => net_fwd ks' w (idx + kparams k) (kforward k (kblock k w idx) X) end.

  Lemma total_cons (k : LayerKind F) ks : total_params (k :: ks) = kparams k + total_params ks.
  Proof. reflexivity. Qed.

  Lemma forward_rest_ok ks : forall w idx (X : matrix F) c, mwf X -> idx + total_params ks <= length w -> widths ks (mcols X) = Some c ->
    forward_rest w (map to_layer ks) idx X = Ok (net_fwd ks w idx X) /\
    mwf (net_fwd ks w idx X) /\ nrows (net_fwd ks w idx X) = nrows X /\ mcols (net_fwd ks w idx X) = c.
  Proof.
    induction ks as [|k ks IH]; intros w idx X c W L HW.
    - cbn in *. injection HW as <-. auto.
    - rewrite total_cons in L. cbn [map forward_rest net_fwd widths] in *.
      destruct (out_width k (mcols X)) as [c1|] eqn:E1; [|discriminate].
      rewrite wslice_kblock by lia. cbn [rbind].
      destruct (forward_fits k (kblock k w idx) X c1 W (kblock_nrows k w idx) eq_refl E1) as (F1 & W1 & R1 & C1).
      rewrite F1. rewrite <- kparams_num. rewrite <- R1. apply IH; auto; [lia|]. rewrite C1. exact HW.
  Qed.
  Lemma forward_rest_err ks : forall w idx (X : matrix F), mwf X -> idx + total_params ks <= length w -> widths ks (mcols X) = None ->
    forward_rest w (map to_layer ks) idx X = Err InvalidParameters.
  Proof.
    induction ks as [|k ks IH]; intros w idx X W L HW; [discriminate|].
    rewrite total_cons in L. cbn [map forward_rest widths] in *.
    rewrite wslice_kblock by lia. cbn [rbind].
    destruct (out_width k (mcols X)) as [c1|] eqn:E1.
    - destruct (forward_fits k (kblock k w idx) X c1 W (kblock_nrows k w idx) eq_refl E1) as (F1 & W1 & R1 & C1).
      rewrite F1. rewrite <- kparams_num. apply IH; auto; [lia|]. rewrite C1. exact HW.
    - rewrite forward_misfit by (auto using kblock_nrows). reflexivity.
  Qed.

  Theorem predict_fits (net : BaseNeuralNet F) ks X c : nn_layers net = map to_layer ks -> length (nn_weights net) = total_params ks -> mwf X ->
    widths ks (mcols X) = Some c ->
    net_predict net X = Ok (net_fwd ks (nn_weights net) 0 X) /\ mwf (net_fwd ks (nn_weights net) 0 X) /\
    nrows (net_fwd ks (nn_weights net) 0 X) = nrows X /\ mcols (net_fwd ks (nn_weights net) 0 X) = c.
  Proof.
    intros HL Hlen W HW.
    destruct (forward_rest_ok ks (nn_weights net) 0 X c W ltac:(lia) HW) as (F1 & W1 & R1 & C1).
    split; [|auto]. unfold net_predict, forward_prop. rewrite HL. destruct ks as [|k ks]; [reflexivity|].
    cbn [map forward_rest] in *. rewrite total_cons in Hlen. rewrite wslice_kblock in * by lia. cbn [rbind] in *.
    destruct (nl_forward (to_layer k) X (kblock k (nn_weights net) 0)); try discriminate. exact F1.
  Qed.
  Theorem predict_misfit (net : BaseNeuralNet F) k ks X : nn_layers net = map to_layer (k :: ks) -> length (nn_weights net) = total_params (k :: ks) -> mwf X ->
    widths (k :: ks) (mcols X) = None ->
    net_predict net X = Err (match out_width k (mcols X) with None => InvalidData | Some _ => InvalidParameters end).
  Proof.
    intros HL Hlen W HW.
    unfold net_predict, forward_prop. rewrite HL. cbn [map]. rewrite total_cons in Hlen.
    rewrite wslice_kblock by lia. cbn [rbind widths] in *.
    destruct (out_width k (mcols X)) as [c1|] eqn:E1.
    - destruct (forward_fits k (kblock k (nn_weights net) 0) X c1 W (kblock_nrows k _ 0) eq_refl E1) as (F1 & W1 & R1 & C1).
      rewrite F1. cbn [rbind]. rewrite <- kparams_num. apply forward_rest_err; [exact W1|lia|]. rewrite C1. exact HW.
    - rewrite forward_misfit by (auto using kblock_nrows). reflexivity.
  Qed.

  (** Open-world characterisation: no layer, one layer, one more layer. *)
  Lemma predict_none (net : BaseNeuralNet F) X : nn_layers net = [] -> net_predict net X = Ok X.
  Proof. intros H. unfold net_predict, forward_prop. rewrite H. reflexivity. Qed.
  Lemma predict_one (net : BaseNeuralNet F) l X : nn_layers net = [l] -> length (nn_weights net) = num_params l ->
    net_predict net X = let? P := get_net_weights net 0 in nl_forward l X P.
  Proof.
    intros H L. unfold net_predict, forward_prop, get_net_weights, get_layer_weights, ridx. rewrite H. cbn [nth_error rbind firstn map list_sum fold_right].
    destruct (wslice (nn_weights net) 0 (fst (nl_param_shape l)) (snd (nl_param_shape l))) as [P|e|]; cbn [rbind]; auto.
    destruct (nl_forward l X P); reflexivity.
  Qed.

  Lemma chunk_firstn r c (d : list F) n : r * c <= n -> chunk r c (firstn n d) = chunk r c d.
  Proof.
    revert d n; induction r as [|r IH]; intros d n H; cbn in *; [reflexivity|]. f_equal.
    - rewrite firstn_firstn. f_equal. lia.
    - rewrite skipn_firstn_comm. apply IH. lia.
  Qed.
  Lemma wslice_firstn (w : list F) n start r c : start + r * c <= n -> n <= length w -> wslice (firstn n w) start r c = wslice w start r c.
  Proof.
    intros H1 H2. rewrite !wslice_ok by (rewrite ?firstn_length; lia). rewrite skipn_firstn_comm, chunk_firstn by lia. reflexivity.
  Qed.
  Lemma forward_rest_snoc (w : list F) (ls : list (NetLayer F)) l : forall idx X,
    idx + list_sum (map num_params ls) + num_params l = length w ->
    forward_rest w (ls ++ [l]) idx X =
    match forward_rest (firstn (idx + list_sum (map num_params ls)) w) ls idx X with
    | Ok Y => let? P := wslice w (idx + list_sum (map num_params ls)) (fst (nl_param_shape l)) (snd (nl_param_shape l)) in
              match nl_forward l Y P with Ok Z => Ok Z | Err _ => Err InvalidParameters | Panic => Panic end
    | Err k => Err k
    | Panic => Panic
    end.
  Proof.
    induction ls as [|a ls IH]; intros idx X H.
    - cbn [app forward_rest map list_sum fold_right]. change (list_sum []) with 0. rewrite !Nat.add_0_r.
      destruct (wslice w idx _ _) as [P| |]; reflexivity.
    - cbn [app forward_rest map] in *.
      change (list_sum (num_params a :: map num_params ls)) with (num_params a + list_sum (map num_params ls)) in *.
      assert (Q : fst (nl_param_shape a) * snd (nl_param_shape a) = num_params a) by reflexivity.
      rewrite wslice_firstn by lia. rewrite wslice_ok by lia. cbn [rbind].
      destruct (nl_forward a X _) as [Y| |]; auto.
      rewrite IH by lia. rewrite Nat.add_assoc. reflexivity.
  Qed.
  Theorem predict_snoc (net : BaseNeuralNet F) l0 ls l X : nn_layers net = l0 :: ls ++ [l] ->
    length (nn_weights net) = list_sum (map num_params (nn_layers net)) ->
    let n := list_sum (map num_params (l0 :: ls)) in
    net_predict net X =
    match net_predict {| nn_layers := l0 :: ls; nn_weights := firstn n (nn_weights net); nn_criterion := nn_criterion net |} X with
    | Ok Y => let? P := get_net_weights net (S (length ls)) in
              match nl_forward l Y P with Ok Z => Ok Z | Err _ => Err InvalidParameters | Panic => Panic end
    | Err k => Err k
    | Panic => Panic
    end.
  Proof.
    intros HL Hlen n. rewrite HL in Hlen. rewrite app_comm_cons, map_app, list_sum_app in Hlen. fold n in Hlen. cbn [map] in Hlen.
    change (list_sum [num_params l]) with (num_params l + 0) in Hlen. rewrite Nat.add_0_r in Hlen.
    assert (En : n = num_params l0 + list_sum (map num_params ls)) by reflexivity.
    unfold net_predict, forward_prop. rewrite HL. cbn [nn_layers nn_weights].
    assert (Q : fst (nl_param_shape l0) * snd (nl_param_shape l0) = num_params l0) by reflexivity.
    rewrite wslice_firstn by lia. rewrite wslice_ok by lia. cbn [rbind].
    destruct (nl_forward l0 X _) as [Y| |]; cbn [rbind]; auto.
    rewrite forward_rest_snoc by lia. rewrite <- En.
    unfold get_net_weights, get_layer_weights, ridx. rewrite HL, app_comm_cons.
    rewrite nth_error_app2 by (cbn; lia). cbn [length]. rewrite Nat.sub_diag. cbn [nth_error rbind].
    rewrite firstn_app. replace (S (length ls) - length (l0 :: ls)) with 0 by (cbn; lia). cbn [firstn].
    rewrite app_nil_r, firstn_all. fold n. reflexivity.
  Qed.
End Generic.

(** ** The row function over the reals *)
Local Open Scope R_scope.

Lemma sumR_S_l n f : sumR (S n) f = f 0%nat + sumR n (fun i => f (S i)).
Proof. induction n as [|n IH]; [cbn; ring|]. cbn [sumR] in *. rewrite IH. ring. Qed.

Lemma dot_col_sum (x : list R) (P : matrix R) n j : length x = n -> nrows P = n ->
  dot x (col P j) = sumR n (fun k => nth k x 0 * entry P k j).
Proof.
  intros Lx HP. rewrite (dot_sumR n) by (rewrite ?col_length; auto). apply sumR_ext. intros k Hk. rewrite col_nth by lia. reflexivity.
Qed.

Lemma kblock_entry (i o : nat) b (w : list R) idx r j : (r < bias_rows b + i)%nat -> (j < o)%nat ->
  entry (kblock (KLinear i o b) w idx) r j = nth (r * o + j) (skipn idx w) 0.
Proof.
  intros Hr Hj. unfold entry, kblock. cbn [mrows].
  assert (E : kshape (KLinear i o b : LayerKind R) = ((bias_rows b + i)%nat, o)) by (destruct b; unfold kshape; cbn; f_equal; lia).
  rewrite E. cbn [fst snd]. apply chunk_nth; assumption.
Qed.

Lemma linear_rows (i o : nat) b (w : list R) idx (X : matrix R) : mwf X -> mcols X = i ->
  mrows (kforward (KLinear i o b) (kblock (KLinear i o b) w idx) X) =
  map (fun x => map (fun j => (if b then nth j (skipn idx w) 0 else 0) +
                              sumR i (fun k => nth k x 0 * nth ((bias_rows b + k) * o + j) (skipn idx w) 0)) (seq 0 o)) (mrows X).
Proof.
  intros W Ei. cbn [kforward]. unfold mat_mul. cbn [mrows].
  assert (Ec : mcols (kblock (KLinear i o b) w idx) = o) by (destruct b; reflexivity). rewrite Ec.
  assert (Er : nrows (kblock (KLinear i o b) w idx) = (bias_rows b + i)%nat) by (rewrite kblock_nrows; destruct b; unfold kshape; cbn; lia).
  destruct b; cbn [kinput].
  - unfold with_ones. cbn [mrows]. rewrite map_map. apply map_ext_in. intros x Hx.
    assert (Lx : length x = i) by (unfold mwf in W; rewrite Forall_forall in W; rewrite (W x Hx); exact Ei).
    apply map_ext_in. intros j Hj. apply in_seq in Hj.
    rewrite (dot_col_sum _ _ (S i)) by (cbn; auto). rewrite sumR_S_l. cbn [nth]. rewrite kblock_entry by (cbn; lia). cbn [Nat.mul Nat.add].
    change (@nonev R NumR) with 1. rewrite Rmult_1_l. f_equal. apply sumR_ext. intros k Hk.
    rewrite kblock_entry by (cbn; lia). reflexivity.
  - apply map_ext_in. intros x Hx.
    assert (Lx : length x = i) by (unfold mwf in W; rewrite Forall_forall in W; rewrite (W x Hx); exact Ei).
    apply map_ext_in. intros j Hj. apply in_seq in Hj.
    rewrite (dot_col_sum _ _ i) by (cbn; auto). rewrite Rplus_0_l. apply sumR_ext. intros k Hk.
    rewrite kblock_entry by (cbn; lia). reflexivity.
Qed.

Lemma net_fwd_rows ks : forall (w : list R) idx (X : matrix R) c, mwf X -> widths ks (mcols X) = Some c ->
  mrows (net_fwd ks w idx X) = map (net_row ks (skipn idx w)) (mrows X).
Proof.
  induction ks as [|k ks IH]; intros w idx X c W HW.
  - cbn. symmetry. apply map_id.
  - cbn [widths net_fwd] in *. destruct (out_width k (mcols X)) as [c1|] eqn:E1; [|discriminate].
    destruct (forward_fits k (kblock k w idx) X c1 W (kblock_nrows k w idx) eq_refl E1) as (F1 & W1 & R1 & C1).
    rewrite (IH _ _ _ c) by (rewrite ?C1; auto). rewrite <- skipn_skipn'.
    destruct k as [i o b|a].
    + cbn in E1. destruct (Nat.eqb_spec (mcols X) i) as [Ei|]; [|discriminate].
      rewrite linear_rows by auto. rewrite map_map. reflexivity.
    + cbn [kforward mmap mrows]. rewrite map_map. reflexivity.
Qed.

Theorem predict_rows (net : BaseNeuralNet R) ks X c : nn_layers net = map to_layer ks -> length (nn_weights net) = total_params ks -> mwf X ->
  widths ks (mcols X) = Some c ->
  net_predict net X = Ok (Mat (map (net_row ks (nn_weights net)) (mrows X)) c).
Proof.
  intros HL Hlen W HW. destruct (predict_fits net ks X c HL Hlen W HW) as (E & _ & _ & C). rewrite E. f_equal.
  pose proof (net_fwd_rows ks (nn_weights net) 0 X c W HW) as R1. cbn [skipn] in R1.
  destruct (net_fwd ks (nn_weights net) 0 X) as [rows c']. cbn in *. subst. reflexivity.
Qed.
