(** * Back propagation computes the chain rule *)
From Coq Require Import List Arith Lia Bool Reals Lra.
From Verif Require Import Base BaseLemmas Num NumFn Linalg LinalgR Spec_Calc CalcR MatR Model_Toolkit Model_Optim Model_Cost
  Model_Regression Model_NNet Spec_Cost Spec_NNet Proof_KMeans Proof_Toolkit Proof_Cost Proof_NNet Proof_NNet2.
Import ListNotations.
Local Open Scope R_scope.

(** A matrix-valued curve of constant shape with an entrywise derivative at [x0]. *)
Definition curve (M : R -> matrix R) (x0 : R) (n c : nat) (D : nat -> nat -> R) : Prop :=
  (forall x, mwf (M x) /\ nrows (M x) = n /\ mcols (M x) = c) /\
  (forall i j, (i < n)%nat -> (j < c)%nat -> derivable_pt_lim (fun x => entry (M x) i j) x0 (D i j)).
Definition inner (n c : nat) (G : matrix R) (D : nat -> nat -> R) : R :=
  sumR n (fun i => sumR c (fun j => entry G i j * D i j)).
Definition shape (G : matrix R) (n c : nat) : Prop := mwf G /\ nrows G = n /\ mcols G = c.

Lemma product_adjoint n c m (G dX X P dP : nat -> nat -> R) :
  sumR n (fun i => sumR c (fun j => G i j * sumR m (fun k => dX i k * P k j + X i k * dP k j))) =
  sumR m (fun k => sumR c (fun j => sumR n (fun i => X i k * G i j) * dP k j)) +
  sumR n (fun i => sumR m (fun k => sumR c (fun j => G i j * P k j) * dX i k)).
Proof.
  rewrite (sumR_ext n _ (fun i => sumR c (fun j => sumR m (fun k => X i k * G i j * dP k j)) + sumR c (fun j => sumR m (fun k => G i j * P k j * dX i k)))).
  2:{ intros i _. rewrite <- sumR_plus. apply sumR_ext. intros j _. rewrite <- sumR_plus, <- sumR_scal. apply sumR_ext. intros k _. ring. }
  rewrite sumR_plus. f_equal.
  - rewrite (sumR_ext n _ (fun i => sumR m (fun k => sumR c (fun j => X i k * G i j * dP k j)))) by (intros; apply sumR_exch).
    rewrite sumR_exch. apply sumR_ext. intros k _. rewrite sumR_exch. apply sumR_ext. intros j _. apply sumR_scal_r.
  - apply sumR_ext. intros i _. rewrite sumR_exch. apply sumR_ext. intros k _. apply sumR_scal_r.
Qed.

Lemma mat_mul_curve A B x0 n m c dA dB : curve A x0 n m dA -> curve B x0 m c dB ->
  curve (fun x => mat_mul (A x) (B x)) x0 n c
    (fun i j => sumR m (fun k => dA i k * entry (B x0) k j + entry (A x0) i k * dB k j)).
Proof.
  intros [SA DA] [SB DB]. split.
  - intros x. destruct (SA x) as (WA & RA & CA), (SB x) as (WB & RB & CB).
    split; [apply mat_mul_wf|]. split; [rewrite mat_mul_nrows; exact RA|exact CB].
  - intros i j Hi Hj.
    apply (dlim_ext (fun x => sumR m (fun k => entry (A x) i k * entry (B x) k j))).
    + intros x. destruct (SA x) as (WA & RA & CA), (SB x) as (WB & RB & CB).
      rewrite mat_mul_entry by (auto; lia). rewrite CA. reflexivity.
    + apply (deriv_sumR m (fun k x => entry (A x) i k * entry (B x) k j)). intros k Hk.
      apply (derivable_pt_lim_mult (fun x => entry (A x) i k) (fun x => entry (B x) k j)); auto.
Qed.

Definition ext_d (b : bool) (dX : nat -> nat -> R) (i j : nat) : R :=
  if b then match j with O => 0 | S j' => dX i j' end else dX i j.
Lemma with_ones_entry_0 (X : matrix R) i : (i < nrows X)%nat -> entry (with_ones X) i 0 = 1.
Proof. intros H. unfold entry, with_ones. cbn [mrows]. rewrite (nth_map _ _ _ _ []) by exact H. reflexivity. Qed.
Lemma with_ones_entry_S (X : matrix R) i j : (i < nrows X)%nat -> entry (with_ones X) i (S j) = entry X i j.
Proof. intros H. unfold entry, with_ones. cbn [mrows]. rewrite (nth_map _ _ _ _ []) by exact H. reflexivity. Qed.

Lemma kinput_curve b X x0 n a dX : curve X x0 n a dX -> curve (fun x => kinput b (X x)) x0 n (bias_rows b + a) (ext_d b dX).
Proof.
  intros [SX DX]. split.
  - intros x. destruct (SX x) as (W & Rr & C). split; [apply kinput_wf; exact W|]. rewrite kinput_nrows, kinput_mcols, C. auto.
  - intros i j Hi Hj. destruct b; cbn [kinput ext_d bias_rows] in *; [|apply DX; assumption].
    destruct j as [|j].
    + apply (dlim_ext (fun _ => 1)); [|apply derivable_pt_lim_const].
      intros x. destruct (SX x) as (W & Rr & C). symmetry. apply with_ones_entry_0. lia.
    + apply (dlim_ext (fun x => entry (X x) i j)); [|apply DX; lia].
      intros x. destruct (SX x) as (W & Rr & C). symmetry. apply with_ones_entry_S. lia.
Qed.

Lemma tl_entry (M : matrix R) i j : entry (Mat (map (@tl R) (mrows M)) (mcols M - 1)) i j = entry M i (S j).
Proof.
  unfold entry. cbn [mrows]. destruct (Nat.lt_ge_cases i (length (mrows M))) as [H|H].
  - rewrite (nth_map _ _ _ _ []) by exact H. destruct (nth i (mrows M) []); [destruct j; reflexivity|reflexivity].
  - rewrite !nth_overflow with (d := []) by (rewrite ?map_length; exact H). destruct j; reflexivity.
Qed.

(** Flat zips. *)
Lemma map2_app {A B C} (f : A -> B -> C) l1 l2 m1 m2 : length l1 = length m1 -> map2 f (l1 ++ l2) (m1 ++ m2) = map2 f l1 m1 ++ map2 f l2 m2.
Proof. revert m1; induction l1 as [|x l1 IH]; intros [|y m1] H; cbn in *; try discriminate; auto. f_equal. apply IH. lia. Qed.
Lemma map2_concat (f : R -> R -> R) c : forall A B, Forall (fun r => length r = c) A -> Forall (fun r => length r = c) B ->
  length A = length B -> map2 f (concat A) (concat B) = concat (map2 (map2 f) A B).
Proof.
  induction A as [|r A IH]; intros [|s B] HA HB L; try discriminate; [reflexivity|].
  inversion HA; inversion HB; subst. cbn [concat map2]. rewrite map2_app by congruence. f_equal. apply IH; auto. 
Qed.

Lemma activ_back_ok a (G X Y P : matrix R) n c : shape G n c -> shape Y n c ->
  activ_back_input a G X Y P = Ok (mzip (fun y g => af_grad_out a y * g) Y G).
Proof.
  intros (WG & RG & CG) (WY & RY & CY). unfold activ_back_input, mdata.
  unfold mwf in WG, WY. rewrite CG in WG. rewrite CY in WY.
  rewrite (map2_concat _ c) by (auto; unfold nrows in *; lia).
  set (Z := mzip (fun y g => af_grad_out a y * g) Y G).
  assert (WZ : mwf Z). { apply mzip_wf; unfold mwf; rewrite ?CY, ?CG; auto. }
  assert (RZ : nrows Z = nrows Y). { unfold Z. rewrite mzip_nrows. lia. }
  rewrite <- RZ. change (mcols Y) with (mcols Z). apply (mat_new_mdata Z WZ).
Qed.

Theorem layer_adjoint (k : LayerKind R) X P x0 n a c dX dP : smooth_kind k -> out_width k a = Some c ->
  curve X x0 n a dX -> curve P x0 (fst (kshape k)) (snd (kshape k)) dP ->
  exists dY, curve (fun x => kforward k (P x) (X x)) x0 n c dY /\
  forall G, shape G n c -> exists GP GX,
    nl_back_params (to_layer k) G (X x0) (kforward k (P x0) (X x0)) (P x0) = Ok GP /\
    nl_back_input (to_layer k) G (X x0) (kforward k (P x0) (X x0)) (P x0) = Ok GX /\
    shape GP (fst (kshape k)) (snd (kshape k)) /\ shape GX n a /\
    inner n c G dY = inner (fst (kshape k)) (snd (kshape k)) GP dP + inner n a GX dX.
Proof.
  intros Sm HW CX CP. destruct k as [i o b|f].
  - cbn in HW. destruct (Nat.eqb_spec a i) as [Ea|]; [|discriminate]. injection HW as <-. subst i.
    assert (Ek : kshape (KLinear a o b : LayerKind R) = ((bias_rows b + a)%nat, o)) by (destruct b; unfold kshape; cbn; f_equal; lia).
    rewrite Ek in *. cbn [fst snd] in *.
    pose proof (kinput_curve b X x0 n a dX CX) as CI.
    pose proof (mat_mul_curve _ _ _ _ _ _ _ _ CI CP) as CY. cbn [kforward].
    eexists. split; [exact CY|]. intros G (WG & RG & CG).
    destruct CX as [SX _]. destruct (SX x0) as (WX & RX & CXc). destruct CP as [SP _]. destruct (SP x0) as (WP & RP & CPc).
    destruct CI as [SI _]. destruct (SI x0) as (WI & RI & CIc).
    set (I := kinput b (X x0)) in *.
    assert (EP : nl_back_params (to_layer (KLinear a o b)) G (X x0) (mat_mul I (P x0)) (P x0) = Ok (mat_mul (transpose I) G)).
    { destruct b; cbn; unfold linear_back_params; cbn; unfold rmat_mul; cbn [mcols transpose]; rewrite RG.
      - change (nrows (with_ones (X x0))) with (nrows I). rewrite RI, Nat.eqb_refl. reflexivity.
      - change (nrows (X x0)) with (nrows I). rewrite RI, Nat.eqb_refl. reflexivity. }
    set (GI := mat_mul G (transpose (P x0))) in *.
    assert (SGI : shape GI n (bias_rows b + a)).
    { split; [apply mat_mul_wf|]. split; [unfold GI; rewrite mat_mul_nrows; exact RG|exact RP]. }
    destruct SGI as (WGI & RGI & CGI).
    assert (EI : nl_back_input (to_layer (KLinear a o b)) G (X x0) (mat_mul I (P x0)) (P x0) =
                 Ok (if b then Mat (map (@tl R) (mrows GI)) (mcols GI - 1) else GI)).
    { assert (EM : rmat_mul G (transpose (P x0)) = Ok GI).
      { unfold rmat_mul. rewrite transpose_nrows, CG, CPc, Nat.eqb_refl. reflexivity. }
      destruct b; cbn; unfold linear_back_input; cbn; rewrite EM; cbn [rbind].
      - apply remove_first_col_ok; [exact WGI|]. rewrite CGI. cbn. lia.
      - reflexivity. }
    exists (mat_mul (transpose I) G), (if b then Mat (map (@tl R) (mrows GI)) (mcols GI - 1) else GI).
    split; [exact EP|]. split; [exact EI|].
    split. { split; [apply mat_mul_wf|]. split; [rewrite mat_mul_nrows, transpose_nrows; exact CIc|exact CG]. }
    split.
    { destruct b; [|split; [exact WGI|split; [exact RGI|exact CGI]]]. split; [|split].
      - apply tl_wf. exact WGI.
      - unfold nrows. cbn. rewrite map_length. exact RGI.
      - cbn [mcols]. rewrite CGI. cbn. lia. }
    unfold inner. rewrite (product_adjoint n o (bias_rows b + a) (entry G) (ext_d b dX) (entry I) (entry (P x0)) dP). f_equal.
    + apply sumR_ext. intros k Hk. apply sumR_ext. intros j Hj. f_equal.
      rewrite mat_mul_entry by (first [apply transpose_wf|rewrite transpose_nrows; lia|cbn; lia]).
      rewrite transpose_mcols, RI. apply sumR_ext. intros q Hq. rewrite transpose_entry by lia. reflexivity.
    + apply sumR_ext. intros r Hr.
      assert (EG : forall k, (k < bias_rows b + a)%nat -> sumR o (fun j => entry G r j * entry (P x0) k j) = entry GI r k).
      { intros k Hk. unfold GI. rewrite mat_mul_entry by (first [exact WG|rewrite transpose_nrows; lia|rewrite transpose_mcols; lia|lia]).
        rewrite CG. apply sumR_ext. intros j Hj. rewrite transpose_entry by lia. reflexivity. }
      destruct b.
      * cbn [bias_rows Nat.add] in *. rewrite sumR_S_l. cbn [ext_d]. rewrite Rmult_0_r, Rplus_0_l.
        apply sumR_ext. intros k Hk. rewrite tl_entry, EG by lia. reflexivity.
      * apply sumR_ext. intros k Hk. cbn [ext_d]. rewrite EG by exact Hk. reflexivity.
  - cbn in HW. injection HW as <-. cbn in Sm. cbn [kforward].
    exists (fun i j => af_grad_out f (af f (entry (X x0) i j)) * dX i j).
    destruct CX as [SX DX].
    assert (SY : forall x, shape (mmap (af f) (X x)) n a).
    { intros x. destruct (SX x) as (W & Rr & C). split; [apply mwf_mmap; exact W|]. rewrite nrows_mmap. auto. }
    split; [split; [exact SY|]|].
    + intros i j Hi Hj. apply (dlim_ext (fun x => af f (entry (X x) i j))).
      * intros x. destruct (SX x) as (W & Rr & C). rewrite mmap_entry by (auto; lia). reflexivity.
      * rewrite Rmult_comm. rewrite Rmult_comm. apply (derivable_pt_lim_comp (fun x => entry (X x) i j) (af f)); auto.
    + intros G SG. exists (Mat [] 0), (mzip (fun y g => af_grad_out f y * g) (mmap (af f) (X x0)) G).
      split; [reflexivity|]. split; [exact (activ_back_ok f G (X x0) _ (P x0) n a SG (SY x0))|].
      split; [split; [constructor|split; reflexivity]|].
      destruct SG as (WG & RG & CG). destruct (SY x0) as (WY & RY & CYc). destruct (SX x0) as (WX & RX & CXc).
      split. { split; [apply mzip_wf; auto; lia|]. split; [rewrite mzip_nrows; lia|exact CYc]. }
      unfold inner at 2. change (fst (kshape (KActiv f))) with 0%nat. cbn [sumR]. rewrite Rplus_0_l.
      unfold inner. apply sumR_ext. intros i Hi. apply sumR_ext. intros j Hj.
      rewrite mzip_entry by (auto; lia). rewrite mmap_entry by (auto; lia). ring.
Qed.

(** ** Weights as a curve *)
Definition wcurve (W : R -> list R) (x0 : R) (len : nat) (dW : nat -> R) : Prop :=
  (forall x, length (W x) = len) /\ (forall q, (q < len)%nat -> derivable_pt_lim (fun x => nth q (W x) 0) x0 (dW q)).

Lemma kblock_curve (k : LayerKind R) W x0 len dW idx : wcurve W x0 len dW -> (idx + kparams k <= len)%nat ->
  curve (fun x => kblock k (W x) idx) x0 (fst (kshape k)) (snd (kshape k)) (fun i j => dW (idx + (i * snd (kshape k) + j))%nat).
Proof.
  intros [LW DW] H. split.
  - intros x. split; [apply kblock_wf; rewrite LW; exact H|]. split; [apply kblock_nrows|reflexivity].
  - intros i j Hi Hj. apply (dlim_ext (fun x => nth (idx + (i * snd (kshape k) + j)) (W x) 0)).
    + intros x. unfold entry, kblock. cbn [mrows]. rewrite chunk_nth by assumption. rewrite skipn_nth. reflexivity.
    + apply DW. rewrite kparams_num in H. unfold num_params in H. fold (kshape k) in H. nia.
Qed.

Lemma sumR_app n m f : sumR (n + m) f = sumR n f + sumR m (fun i => f (n + i)%nat).
Proof. induction m as [|m IH]; [rewrite Nat.add_0_r; cbn; ring|]. rewrite Nat.add_succ_r. cbn [sumR]. rewrite IH. ring. Qed.
Lemma sumR_flat r c f : sumR r (fun i => sumR c (fun j => f (i * c + j)%nat)) = sumR (r * c) f.
Proof.
  induction r as [|r IH]; [reflexivity|]. cbn [sumR]. rewrite IH. replace (S r * c)%nat with (r * c + c)%nat by lia. rewrite sumR_app. reflexivity.
Qed.
Lemma mdata_nth (m : matrix R) i j : mwf m -> (i < nrows m)%nat -> (j < mcols m)%nat -> nth (i * mcols m + j) (mdata m) 0 = entry m i j.
Proof.
  unfold mwf, nrows, mdata, entry. generalize (mcols m) as c. intros c W. revert i. induction W as [|r rs Hr _ IH]; intros i Hi Hj; cbn in *; [lia|].
  destruct i as [|i].
  - cbn. rewrite app_nth1 by lia. reflexivity.
  - rewrite app_nth2 by (rewrite Hr; cbn; lia). rewrite <- IH by lia. f_equal. rewrite Hr. cbn. lia.
Qed.
Lemma inner_flat r c G dW idx : shape G r c -> inner r c G (fun i j => dW (idx + (i * c + j))%nat) = sumR (r * c) (fun q => nth q (mdata G) 0 * dW (idx + q)%nat).
Proof.
  intros (W & Rr & C). rewrite <- (sumR_flat r c). unfold inner. apply sumR_ext. intros i Hi. apply sumR_ext. intros j Hj.
  rewrite <- C at 2. rewrite mdata_nth by (auto; lia). reflexivity.
Qed.

(** ** The passes of [compute_grad] *)
Fixpoint trace_of (ks : list (LayerKind R)) (w : list R) (idx : nat) (X : matrix R) : list (@trace R) :=
  match ks with
  | [] => []
  | k :: ks' => (to_layer k, X, kforward k (kblock k w idx) X, kblock k w idx) :: trace_of ks' w (idx + kparams k) (kforward k (kblock k w idx) X)
  end.

Lemma forward_pass_ok ks : forall w idx X c, mwf X -> (idx + total_params ks <= length w)%nat -> widths ks (mcols X) = Some c ->
  forward_pass w (map to_layer ks) idx X = Ok (trace_of ks w idx X, (idx + total_params ks)%nat).
Proof.
  induction ks as [|k ks IH]; intros w idx X c W L HW.
  - cbn. rewrite Nat.add_0_r. reflexivity.
  - rewrite total_cons in L. cbn [map forward_pass trace_of widths] in *.
    destruct (out_width k (mcols X)) as [c1|] eqn:E1; [|discriminate].
    rewrite wslice_kblock by lia. cbn [rbind].
    destruct (forward_fits k (kblock k w idx) X c1 W (kblock_nrows k w idx) eq_refl E1) as (F1 & W1 & R1 & C1).
    rewrite F1. cbn [unwrap rbind]. rewrite <- kparams_num.
    rewrite (IH _ _ _ c) by (rewrite ?C1; auto; lia). cbn [rbind]. rewrite total_cons, Nat.add_assoc. reflexivity.
Qed.
Lemma forward_pass_misfit ks : forall w idx (X : matrix R), mwf X -> (idx + total_params ks <= length w)%nat -> widths ks (mcols X) = None ->
  forward_pass w (map to_layer ks) idx X = Panic.
Proof.
  induction ks as [|k ks IH]; intros w idx X W L HW; [discriminate|].
  rewrite total_cons in L. cbn [map forward_pass widths] in *.
  rewrite wslice_kblock by lia. cbn [rbind].
  destruct (out_width k (mcols X)) as [c1|] eqn:E1.
  - destruct (forward_fits k (kblock k w idx) X c1 W (kblock_nrows k w idx) eq_refl E1) as (F1 & W1 & R1 & C1).
    rewrite F1. cbn [unwrap rbind]. rewrite <- kparams_num. rewrite IH by (rewrite ?C1; auto; lia). reflexivity.
  - rewrite forward_misfit; [reflexivity|apply kblock_nrows|exact E1].
Qed.
Lemma trace_last ks k : forall w idx X, exists l i p, exists rest,
  rev (trace_of (k :: ks) w idx X) = (l, i, net_fwd (k :: ks) w idx X, p) :: rest.
Proof.
  revert k. induction ks as [|k' ks IH]; intros k w idx X.
  - cbn. do 4 eexists. reflexivity.
  - destruct (IH k' w (idx + kparams k)%nat (kforward k (kblock k w idx) X)) as (l & i & p & rest & E).
    change (trace_of (k :: k' :: ks) w idx X) with ((to_layer k, X, kforward k (kblock k w idx) X, kblock k w idx) :: trace_of (k' :: ks) w (idx + kparams k) (kforward k (kblock k w idx) X)).
    cbn [rev]. rewrite E. cbn [app]. do 4 eexists. reflexivity.
Qed.

Lemma backward_app (ts1 ts2 : list (@trace R)) : forall i g G,
  backward_pass (ts1 ++ ts2) i g G = let? (ig, G') := backward_pass ts1 i g G in backward_pass ts2 (fst ig) (snd ig) G'.
Proof.
  induction ts1 as [|[[[l a] r] p] ts1 IH]; intros i g G; [reflexivity|].
  cbn [app backward_pass]. destruct (num_params l <=? i)%nat; cbn [rassert]; [|reflexivity].
  destruct (nl_back_params l G a r p); cbn [rbind]; auto.
  destruct (write_block g (i - num_params l) (num_params l) (mdata a0)); cbn [rbind]; auto.
  destruct (nl_back_input l G a r p); cbn [rbind]; auto.
Qed.

Theorem backward_ok ks : forall W x0 len dW idx X n a c dX, Forall smooth_kind ks -> wcurve W x0 len dW -> (idx + total_params ks <= len)%nat ->
  widths ks a = Some c -> curve X x0 n a dX ->
  exists dY, curve (fun x => net_fwd ks (W x) idx (X x)) x0 n c dY /\
  forall G grads, shape G n c -> length grads = len ->
  exists g GX,
    backward_pass (rev (trace_of ks (W x0) idx (X x0))) (idx + total_params ks) grads G =
      Ok (idx, firstn idx grads ++ map Some g ++ skipn (idx + total_params ks) grads, GX) /\
    length g = total_params ks /\ shape GX n a /\
    inner n c G dY = sumR (total_params ks) (fun q => nth q g 0 * dW (idx + q)%nat) + inner n a GX dX.
Proof.
  induction ks as [|k ks IH]; intros W x0 len dW idx X n a c dX Sm HWc L HW CX.
  - cbn in HW. injection HW as <-. exists dX. split; [exact CX|]. intros G grads SG Lg. exists [], G.
    cbn [trace_of rev backward_pass map app]. change (total_params []) with 0%nat in *. rewrite Nat.add_0_r, firstn_skipn.
    split; [reflexivity|]. split; [reflexivity|]. split; [exact SG|]. cbn [sumR]. ring.
  - inversion Sm as [|? ? Sk Sks]; subst. rewrite total_cons in *. cbn [widths] in HW.
    destruct (out_width k a) as [c1|] eqn:E1; [|discriminate].
    assert (CP := kblock_curve k W x0 len dW idx HWc ltac:(lia)).
    destruct (layer_adjoint k X (fun x => kblock k (W x) idx) x0 n a c1 dX _ Sk E1 CX CP) as (dY1 & CY1 & Adj1).
    destruct (IH W x0 len dW (idx + kparams k)%nat (fun x => kforward k (kblock k (W x) idx) (X x)) n c1 c dY1 Sks HWc ltac:(lia) HW CY1) as (dY & CY & Adj).
    exists dY. split; [exact CY|]. intros G grads SG Lg.
    destruct (Adj G grads SG Lg) as (g2 & GX2 & E2 & Lg2 & SG2 & I2).
    destruct (Adj1 GX2 SG2) as (GP & GX & EP & EX & SP & SX & I1).
    exists (mdata GP ++ g2), GX.
    assert (LP : length (mdata GP) = kparams k).
    { destruct SP as (WP & RP & CPc). rewrite mdata_len by exact WP. rewrite RP, CPc, kparams_num. reflexivity. }
    split; [|split; [|split; [exact SX|]]].
    + cbn [trace_of rev]. rewrite backward_app. rewrite Nat.add_assoc. rewrite E2. cbn [rbind fst snd].
      cbn [backward_pass]. rewrite <- kparams_num. rewrite (proj2 (Nat.leb_le _ _)) by lia. cbn [rassert].
      replace (idx + kparams k - kparams k)%nat with idx by lia. rewrite EP. cbn [rbind].
      set (T1 := firstn (idx + kparams k) grads). set (T2 := map Some g2 ++ skipn (idx + kparams k + total_params ks) grads).
      assert (LT1 : length T1 = (idx + kparams k)%nat) by (unfold T1; rewrite firstn_length; lia).
      unfold write_block. rewrite app_length, LT1. rewrite (proj2 (Nat.leb_le _ _)) by lia. cbn [rassert]. rewrite LP, Nat.eqb_refl. cbn [rassert rbind].
      rewrite EX. cbn [rbind backward_pass]. f_equal. f_equal. f_equal.
      rewrite firstn_app, LT1. replace (idx - (idx + kparams k))%nat with 0%nat by lia. cbn [firstn]. rewrite app_nil_r.
      unfold T1 at 1. rewrite firstn_firstn. replace (Nat.min idx (idx + kparams k)) with idx by lia. f_equal.
      rewrite map_app, <- app_assoc. f_equal.
      rewrite skipn_app, LT1, Nat.sub_diag. rewrite skipn_all2 by lia. reflexivity.
    + rewrite app_length, LP, Lg2. reflexivity.
    + rewrite I2, I1. rewrite inner_flat by exact SP. rewrite sumR_app.
      replace (fst (kshape k) * snd (kshape k))%nat with (kparams k) by (rewrite kparams_num; reflexivity).
      rewrite (sumR_ext (kparams k) (fun q => nth q (mdata GP ++ g2) 0 * dW (idx + q)%nat) (fun q => nth q (mdata GP) 0 * dW (idx + q)%nat)).
      2:{ intros q Hq. rewrite app_nth1 by lia. reflexivity. }
      rewrite (sumR_ext (total_params ks) (fun i => nth (kparams k + i) (mdata GP ++ g2) 0 * dW (idx + (kparams k + i))%nat) (fun q => nth q g2 0 * dW (idx + kparams k + q)%nat)).
      2:{ intros q Hq. rewrite app_nth2 by lia. rewrite LP. replace (kparams k + q - kparams k)%nat with q by lia. rewrite Nat.add_assoc. reflexivity. }
      ring.
Qed.
