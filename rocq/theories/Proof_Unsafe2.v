(** * The unchecked accesses of PCA, the networks and the k-means initialisers; searching for no neighbours *)
From Coq Require Import List Arith Lia Bool Permutation Reals.
From Verif Require Import Base BaseLemmas Num NumFn NumOrd Linalg LinalgR Spec_Calc CalcR Model_Toolkit Model_Optim Model_Regression Model_KNN Spec_KNN Proof_KNearest Proof_Tree Proof_KNN2 Proof_KNNEx.
From Verif Require Import Model_KMeans Model_PCA Spec_PCA Model_NNet Spec_NNet Proof_NNet Model_Unsafe Spec_Unsafe Proof_Unsafe.
Import ListNotations.
Local Open Scope nat_scope.

(** ** No neighbours asked for *)
Section K0.
  Context {G : Type} (B : BinarySplit (F := R) G).

  Lemma leaf_walk (point : list R) w : w <= length point -> forall (t : node (F := R) G) q, dims_below w t ->
    exists ch q', search_leaf t point q = Ok (ch, q') /\ In ch (leaves t) /\
      (q <> [] \/ (exists dim, splits_on t dim) -> q' <> []) /\
      (forall n, In n q' -> In n q \/ incl (leaves n) (leaves t)).
  Proof.
    intros L. induction t as [ch|dim sp g l IHl r IHr]; intros q D; cbn [search_leaf].
    - exists ch, q. repeat split; auto. + now left. + intros [H|(d & sp & g & l & r & E)]; [exact H|discriminate].
    - destruct D as (D1 & D2 & D3). rewrite (ridx_nth _ _ 0%R) by lia. cbn [rbind]. destruct nltb.
      + destruct (IHl (q ++ [r]) D2) as (ch & q' & E & I1 & I2 & I3). exists ch, q'. repeat split; auto.
        * cbn. apply in_or_app; now left.
        * intros _. apply I2. left. now destruct q.
        * intros n Hn. destruct (I3 n Hn) as [H|H].
          -- apply in_app_or in H. destruct H as [H|[<-|[]]]; auto. right. cbn. now apply incl_appr, incl_refl.
          -- right. cbn. now apply incl_appl.
      + destruct (IHr (q ++ [l]) D3) as (ch & q' & E & I1 & I2 & I3). exists ch, q'. repeat split; auto.
        * cbn. apply in_or_app; now right.
        * intros _. apply I2. left. now destruct q.
        * intros n Hn. destruct (I3 n Hn) as [H|H].
          -- apply in_app_or in H. destruct H as [H|[<-|[]]]; auto. right. cbn. now apply incl_appl, incl_refl.
          -- right. cbn. now apply incl_appr.
  Qed.

  Theorem tree_zero fuel leafsize t dim (data : matrix R) (point : list R) checked : mwf data -> 0 < nrows data -> mcols data <= length point ->
    tree_build B fuel leafsize data = Some (Ok t) -> splits_on t dim ->
    m_tree_search checked B (Some (t, data)) point 0 = if checked then MPanic else MUB.
  Proof.
    intros W NE L T Sp. pose proof (build_dims B _ _ _ _ W T) as D.
    destruct (build_spec B data W (nn_R data) fuel leafsize t NE T) as (P & Lv & _).
    assert (IN : forall ch, In ch (leaves t) -> ch <> [] /\ forall i, In i ch -> i < nrows data).
    { intros ch Hc. split; [now apply Lv|]. intros i Hi.
      assert (Q : In i (stored t)). { clear -Hc Hi. induction t as [c|d s g l IHl r IHr]; cbn in *; [destruct Hc as [<-|[]]; auto|].
        apply in_or_app. apply in_app_or in Hc. destruct Hc; [left|right]; auto. }
      apply (Permutation_in _ P) in Q. apply in_seq in Q. lia. }
    cbn [m_tree_search]. rewrite (m_leaf_ok (mcols data) point L t [] D).
    destruct (leaf_walk point (mcols data) L t [] D) as (ch & q & E & I1 & I2 & I3). rewrite E. cbn [lift mbind].
    rewrite get_distances_spec by (now apply IN). cbn [lift mbind].
    unfold knearest_new. replace (existsb _ _) with false; [|symmetry; clear; induction (combine ch (map (rowdist data point) ch)); cbn; auto].
    rewrite andb_false_r. cbn [lift mbind firstn].
    destruct q as [|n q]; [exfalso; apply I2; auto; right; now exists dim|].
    assert (S1 : exists m, tsize t = S m) by (destruct t; cbn; eauto). destruct S1 as (m & ->). cbn [m_search_loop].
    destruct n as [c'|dim' sp' g' l' r'].
    - destruct (I3 (Leaf c')) as [[]|H]; [now left|]. rewrite get_distances_spec by (apply IN, H; now left). cbn [lift mbind].
      unfold m_knearest_dist, usub. cbn. now destruct checked.
    - unfold m_knearest_dist, usub. cbn. now destruct checked.
  Qed.
End K0.

(** ** PCA *)
Section P.
  Context {F : Type} {N : Num F}.

  Lemma center_row_ok (row : list F) centers : forall c, c + length row <= length centers ->
    m_center_row row c centers = MOk (vsub row (skipn c centers)).
  Proof.
    induction row as [|x row IH]; intros c L; cbn [m_center_row]; cbn in L.
    - f_equal. 
    - rewrite uget_in by lia. rewrite (ridx_nth _ _ nzero) by lia. cbn [lift mbind]. rewrite IH by lia. cbn [mbind].
      assert (E : skipn c centers = nth c centers nzero :: skipn (S c) centers).
      { assert (H : c < length centers) by lia. clear -H. revert c H. induction centers as [|y l IH]; intros [|c] H; cbn in *; try lia; auto. rewrite IH by lia. reflexivity. }
      rewrite E. reflexivity.
  Qed.
  Lemma m_centering_ok (X : matrix F) centers : mwf X -> mcols X <= length centers -> m_centering X centers = lift (centering X centers).
  Proof.
    intros W L. unfold m_centering, centering. rewrite (proj2 (Nat.leb_le _ _) L). cbn [rassert lift].
    assert (E : mmap (fun r => m_center_row r 0 centers) (mrows X) = MOk (map (fun r => vsub r centers) (mrows X))).
    { unfold mwf in W. induction W as [|r rows Hr W IH]; auto. cbn [mmap map]. rewrite center_row_ok by lia. cbn [mbind]. rewrite IH. reflexivity. }
    now rewrite E.
  Qed.
  Theorem pca_train_sound (X : matrix F) : mwf X -> sound_as (m_pca_train_centering X) (centering X (col_mean X)).
  Proof. intros W. apply sound_lift. apply m_centering_ok; auto. unfold col_mean. rewrite map_length, seq_length. lia. Qed.

  Definition centred_ok (self : PCA F) : Prop :=
    forall f centers, pca_center self = true -> pca_n_features self = Some f -> pca_centers self = Some centers -> length centers = f.
  Lemma trained_centred svd (start self : PCA F) Ts : centred_ok start -> trained_on svd start Ts self -> centred_ok self.
  Proof.
    intros S. induction 1 as [|Ts self X self' H IH W E|Ts self X self' k H IH W E]; auto.
    - unfold pca_train in E. destruct (match pca_n self with None => false | Some n => mcols X <? n end); [discriminate|].
      destruct (pca_center self) eqn:C.
      + cbn [pca_n pca_inv pca_center pca_centers pca_components] in E.
        destruct (let? data := centering X (col_mean X) in _) as [v0|k|]; try discriminate.
        destruct (match pca_n self with Some c => _ | None => _ end) as [comps|k|]; try discriminate.
        injection E as <-. intros f centers _ Hf Hc. cbn in Hf, Hc. injection Hf as <-. injection Hc as <-.
        unfold col_mean. now rewrite map_length, seq_length.
      + destruct (let? data := Ok X in _) as [v0|k|]; try discriminate.
        destruct (match pca_n self with Some c => _ | None => _ end) as [comps|k|]; try discriminate.
        injection E as <-. intros f centers Hc. cbn in Hc. congruence.
    - unfold pca_train in E. destruct (match pca_n self with None => false | Some n => mcols X <? n end); [now injection E as <- _|].
      destruct (pca_center self) eqn:C.
      + cbn [pca_n pca_inv pca_center pca_centers pca_components] in E. unfold centering in E. destruct (_ <=? _) in E; [|discriminate].
        cbn [rassert rbind] in E. destruct (svd _) as [v0|]; try discriminate.
        destruct (pca_n self); unfold select_cols in E; try discriminate. unfold rassert in E. destruct (forallb _ _) in E; discriminate.
      + cbn [rbind] in E. destruct (svd _) as [v0|]; try discriminate.
        destruct (pca_n self); unfold select_cols in E; try discriminate. unfold rassert in E. destruct (forallb _ _) in E; discriminate.
  Qed.
  Theorem pca_predict_sound svd (start self : PCA F) Ts X : (start = pca_default \/ exists n c, start = pca_new n c) ->
    trained_on svd start Ts self -> mwf X -> sound_as (m_pca_predict self X) (pca_predict self X).
  Proof.
    intros S T W. apply sound_lift.
    assert (C : centred_ok self). { eapply trained_centred; eauto. intros f ce _ H. destruct S as [->|(n & c & ->)]; discriminate. }
    unfold m_pca_predict, pca_predict. destruct (pca_n_features self) as [f|] eqn:Ef; auto.
    destruct (Nat.eqb_spec f (mcols X)) as [->|]; auto. cbn [negb]. destruct (pca_components self) as [comp|]; auto.
    destruct (pca_center self) eqn:Ec; [|now destruct pca_inv]. destruct (pca_centers self) as [ce|] eqn:Ece; auto.
    apply bind_ext; [|intros; now destruct pca_inv]. apply m_centering_ok; auto. rewrite (C _ _ Ec Ef Ece). lia.
  Qed.
End P.

(** ** Networks *)
Section NN.
  Context {F : Type} {N : Num F} {NF : NumFn F}.

  Lemma m_wslice_ok (w : list F) s r c : s + r * c <= length w -> m_wslice w s r c = lift (wslice w s r c).
  Proof. intros H. unfold m_wslice, wslice. now rewrite (proj2 (Nat.leb_le _ _) H). Qed.
  Lemma m_forward_rest_ok (w : list F) layers : forall index X, index + list_sum (map num_params layers) <= length w ->
    m_forward_rest w layers index X = lift (forward_rest w layers index X).
  Proof.
    induction layers as [|l ls IH]; intros index X H; cbn [m_forward_rest forward_rest]; auto. cbn [map list_sum fold_right] in H.
    change (fold_right Nat.add 0 (map num_params ls)) with (list_sum (map num_params ls)) in H.
    apply bind_ext; [apply m_wslice_ok; unfold num_params in H; lia|]. intros s _.
    destruct (nl_forward l X s); auto. apply IH. lia.
  Qed.
  Lemma m_predict_ok (net : BaseNeuralNet F) X : list_sum (map num_params (nn_layers net)) <= length (nn_weights net) ->
    m_net_predict net X = lift (net_predict net X).
  Proof.
    intros H. unfold m_net_predict, net_predict, forward_prop. destruct (nn_layers net) as [|l ls]; auto. cbn [map list_sum fold_right] in H.
    change (fold_right Nat.add 0 (map num_params ls)) with (list_sum (map num_params ls)) in H.
    apply bind_ext; [apply m_wslice_ok; unfold num_params in H; lia|]. intros s _. apply bind_ext; auto. intros Y _. apply m_forward_rest_ok. lia.
  Qed.
  Lemma m_weights_ok (net : BaseNeuralNet F) idx : list_sum (map num_params (nn_layers net)) <= length (nn_weights net) ->
    m_get_net_weights net idx = lift (get_net_weights net idx).
  Proof.
    intros H. unfold m_get_net_weights, get_net_weights, get_layer_weights. apply bind_ext; auto. intros l Hl.
    apply m_wslice_ok. unfold ridx in Hl. destruct (nth_error (nn_layers net) idx) as [l'|] eqn:E; [|discriminate]. injection Hl as ->.
    rewrite (firstn_nth_split _ _ _ E), map_app, list_sum_app in H. cbn [map list_sum fold_right] in H.
    unfold num_params at 2 in H. lia.
  Qed.
  Theorem net_sound (net : BaseNeuralNet F) X idx : reachable net ->
    sound_as (m_net_predict net X) (net_predict net X) /\ sound_as (m_get_net_weights net idx) (get_net_weights net idx).
  Proof.
    intros H. apply reachable_len in H. unfold len_ok in H. split; apply sound_lift; [apply m_predict_ok|apply m_weights_ok]; lia.
  Qed.

  Lemma m_forward_pass_ok (w : list F) layers : forall index X, index + list_sum (map num_params layers) <= length w ->
    m_forward_pass w layers index X = lift (forward_pass w layers index X).
  Proof.
    induction layers as [|l ls IH]; intros index X H; cbn [m_forward_pass forward_pass]; auto. cbn [map list_sum fold_right] in H.
    change (fold_right Nat.add 0 (map num_params ls)) with (list_sum (map num_params ls)) in H.
    apply bind_ext; [apply m_wslice_ok; unfold num_params in H; lia|]. intros s _.
    apply bind_ext; auto. intros Y _. apply bind_ext; [apply IH; lia|]. intros [ts i] _. reflexivity.
  Qed.
  Definition tl_layer (t : trace (F := F)) : NetLayer F := fst (fst (fst t)).
  Lemma forward_pass_layers (w : list F) layers : forall index X ts i, forward_pass w layers index X = Ok (ts, i) ->
    map tl_layer ts = layers /\ i = index + list_sum (map num_params layers).
  Proof.
    induction layers as [|l ls IH]; intros index X ts i; cbn [forward_pass]; [intros H; injection H as <- <-; split; auto; cbn; lia|].
    destruct (wslice _ _ _ _); cbn [rbind]; try discriminate. destruct (unwrap _); cbn [rbind]; try discriminate.
    destruct (forward_pass w ls _ _) as [[ts' i']| |] eqn:E; cbn [rbind]; try discriminate. intros H. injection H as <- <-.
    apply IH in E. destruct E as (E1 & ->). split; [cbn; now rewrite E1|]. cbn [map list_sum fold_right].
    change (fold_right Nat.add 0 (map num_params ls)) with (list_sum (map num_params ls)). lia.
  Qed.

  Definition filled (index : nat) (g : list (option F)) : Prop := forall j, index <= j -> j < length g -> nth j g None <> None.
  Lemma write_filled g index len data g' : filled (index + len) g -> write_block g index len data = Ok g' -> filled index g' /\ length g' = length g.
  Proof.
    intros Fl. unfold write_block. destruct (Nat.leb_spec (index + len) (length g)) as [L|]; [|discriminate].
    destruct (Nat.eqb_spec (length data) len) as [Ld|]; [|discriminate]. cbn [rassert]. intros H. injection H as <-.
    assert (Lf : length (firstn index g) = index) by (rewrite firstn_length; lia).
    assert (LL : length (firstn index g ++ map Some data ++ skipn (index + len) g) = length g).
    { rewrite !app_length, Lf, map_length, skipn_length. lia. }
    split; auto. intros j J1 J2. rewrite LL in J2. rewrite app_nth2 by lia. rewrite Lf.
    destruct (Nat.lt_ge_cases (j - index) len).
    - rewrite app_nth1 by (rewrite map_length; lia). destruct data as [|x0 data0] eqn:Ed; [cbn in Ld; lia|].
      rewrite (nth_indep _ None (Some x0)) by (rewrite map_length; lia). rewrite map_nth. discriminate.
    - rewrite app_nth2 by (rewrite map_length; lia). rewrite map_length, Ld.
      replace (nth (j - index - len) (skipn (index + len) g) None) with (nth j g None); [apply Fl; lia|].
      rewrite <- (firstn_skipn (index + len) g) at 1. rewrite app_nth2 by (rewrite firstn_length; lia). f_equal. rewrite firstn_length. lia.
  Qed.
  Lemma backward_filled ts : forall index g og i g' og', filled index g -> backward_pass ts index g og = Ok (i, g', og') ->
    filled i g' /\ length g' = length g /\ i + list_sum (map num_params (map tl_layer ts)) = index.
  Proof.
    induction ts as [|[[[l a] r] p] ts IH]; intros index g og i g' og' Fl; cbn [backward_pass].
    - intros H. injection H as <- <- <-. cbn. repeat split; auto; lia.
    - destruct (Nat.leb_spec (num_params l) index) as [L|]; [|discriminate]. cbn [rassert].
      destruct (nl_back_params l og a r p) as [gp| |]; cbn [rbind]; try discriminate.
      destruct (write_block g (index - num_params l) (num_params l) (mdata gp)) as [g1| |] eqn:W; cbn [rbind]; try discriminate.
      destruct (nl_back_input l og a r p) as [og1| |]; cbn [rbind]; try discriminate.
      assert (Fl' : filled (index - num_params l + num_params l) g) by (replace (index - num_params l + num_params l) with index by lia; exact Fl).
      destruct (write_filled _ _ _ _ _ Fl' W) as (Fl1 & L1).
      intros H. apply IH in H; auto. destruct H as (H1 & H2 & H3). rewrite H2, L1. repeat split; auto. cbn [map tl_layer fst list_sum fold_right].
      change (fold_right Nat.add 0 (map num_params (map tl_layer ts))) with (list_sum (map num_params (map tl_layer ts))). lia.
  Qed.
  Lemma list_sum_rev l : list_sum (rev l) = list_sum l.
  Proof. induction l as [|x l IH]; auto. cbn [rev]. rewrite list_sum_app, IH. cbn [list_sum fold_right]. change (fold_right Nat.add 0 l) with (list_sum l). lia. Qed.
  Lemma written_ok (g : list (option F)) : (forall j, j < length g -> nth j g None <> None) -> mmap m_written g = lift (rmap written g).
  Proof.
    intros H. apply mmap_ext. intros a Ha. destruct (In_nth _ _ None Ha) as (j & J & E). specialize (H j J). rewrite E in H. destruct a; [reflexivity|easy].
  Qed.

  Theorem grad_sound (net : BaseNeuralNet F) w X T : length w = list_sum (map num_params (nn_layers net)) ->
    sound_as (m_net_compute_grad net w X T) (net_compute_grad net w X T).
  Proof.
    intros L. apply sound_lift. unfold m_net_compute_grad, net_compute_grad. cbn zeta.
    apply bind_ext; [apply m_forward_pass_ok; lia|]. intros [ts i] E. apply forward_pass_layers in E. destruct E as (E1 & E2).
    pose proof (eq_refl (rev ts)) as Er. destruct (rev ts) as [|[[[l a] r] p] rt] eqn:Ert in Er |- *; auto.
    apply bind_ext; auto. intros og _. apply bind_ext; auto. intros [[i' g'] og'] Eb.
    assert (Fl : filled i (repeat (@None F) (length w))). { intros j J1 J2. rewrite repeat_length in J2. lia. }
    apply (backward_filled _ _ _ _ _ _ _ Fl) in Eb. destruct Eb as (B1 & B2 & B3).
    assert (S0 : list_sum (map num_params (map tl_layer (rev ts))) = i).
    { rewrite map_map, map_rev, list_sum_rev, <- map_map, E1. lia. }
    rewrite Ert in S0.
    apply bind_ext; [apply written_ok; intros j J; apply B1; lia|]. intros gr _. apply bind_ext; auto. intros co _.
    now destruct is_regularized.
  Qed.

  (** A call that returns was given exactly as many parameters as the layers hold. *)
  Lemma m_forward_pass_inv (w : list F) layers : forall index X ts i, m_forward_pass w layers index X = MOk (ts, i) ->
    index + list_sum (map num_params layers) <= length w \/ layers = [].
  Proof.
    induction layers as [|l ls IH]; intros index X ts i; cbn [m_forward_pass]; auto. unfold m_wslice.
    destruct (Nat.leb_spec (index + fst (nl_param_shape l) * snd (nl_param_shape l)) (length w)) as [Q|]; cbn [mbind]; try discriminate.
    destruct (lift _) as [Y| | |]; cbn [mbind]; try discriminate.
    destruct (m_forward_pass w ls _ _) as [[ts' i']| | |] eqn:E; cbn [mbind]; try discriminate. intros _. left.
    cbn [map list_sum fold_right]. change (fold_right Nat.add 0 (map num_params ls)) with (list_sum (map num_params ls)).
    apply IH in E. destruct E as [E| ->]; [|cbn; unfold num_params; lia]. lia.
  Qed.
  Lemma backward_untouched (ts : list (trace (F := F))) : forall index g og i g' og', backward_pass ts index g og = Ok (i, g', og') ->
    forall j, index <= j -> nth j g' None = nth j g None.
  Proof.
    induction ts as [|[[[l a] r] p] ts IH]; intros index g og i g' og'; cbn [backward_pass].
    - intros H. now injection H as <- <- <-.
    - destruct (Nat.leb_spec (num_params l) index) as [L|]; [|discriminate]. cbn [rassert].
      destruct (nl_back_params l og a r p) as [gp| |]; cbn [rbind]; try discriminate.
      destruct (write_block g (index - num_params l) (num_params l) (mdata gp)) as [g1| |] eqn:W; cbn [rbind]; try discriminate.
      destruct (nl_back_input l og a r p) as [og1| |]; cbn [rbind]; try discriminate.
      intros H j J. rewrite (IH _ _ _ _ _ _ H j) by lia. unfold write_block in W.
      destruct (Nat.leb_spec (index - num_params l + num_params l) (length g)) as [LL|]; [|discriminate].
      destruct (Nat.eqb_spec (length (mdata gp)) (num_params l)) as [Ld|]; [|discriminate]. cbn [rassert] in W. injection W as <-.
      assert (Lf : length (firstn (index - num_params l) g) = index - num_params l) by (rewrite firstn_length; lia).
      rewrite app_nth2 by lia. rewrite app_nth2 by (rewrite map_length; lia). rewrite Lf, map_length, Ld.
      replace (index - num_params l + num_params l) with index by lia.
      rewrite <- (firstn_skipn index g) at 2. rewrite app_nth2 by (rewrite firstn_length; lia). f_equal. rewrite firstn_length. lia.
  Qed.
  Theorem grad_returns_length (net : BaseNeuralNet F) w X T r : m_net_compute_grad net w X T = MOk r ->
    length w = list_sum (map num_params (nn_layers net)).
  Proof.
    unfold m_net_compute_grad. cbn zeta.
    destruct (m_forward_pass w (nn_layers net) 0 X) as [[ts i]| | |] eqn:E; cbn [mbind]; try discriminate.
    pose proof E as E0. apply m_forward_pass_inv in E0.
    destruct E0 as [LE|Z].
    2:{ rewrite Z in E. cbn in E. injection E as <- <-. discriminate. }
    rewrite m_forward_pass_ok in E by exact LE.
    destruct (forward_pass w (nn_layers net) 0 X) as [[ts1 i1]| |] eqn:E1; try discriminate. cbn [lift] in E. injection E as <- <-.
    apply forward_pass_layers in E1. destruct E1 as (E1 & E2).
    destruct (rev ts1) as [|[[[l a] rr] p] rt] eqn:Ert; try discriminate.
    destruct (lift (cr_cost_grad _ _ _)) as [og| | |]; cbn [mbind]; try discriminate.
    destruct (backward_pass _ _ _ og) as [[[i' g'] og']| |] eqn:Eb; cbn [lift mbind]; try discriminate.
    destruct (Nat.eq_dec (length w) (list_sum (map num_params (nn_layers net)))) as [|NE]; auto.
    assert (Fl : filled (length w) (repeat (@None F) (length w))). { intros j J1 J2. rewrite repeat_length in J2. lia. }
    assert (Len : length g' = length w).
    { assert (Q : forall (ts : list (trace (F := F))) index g og i g' og', backward_pass ts index g og = Ok (i, g', og') -> length g' = length g).
      { clear. induction ts as [|[[[l a] r] p] ts IH]; intros index g og i g' og'; cbn [backward_pass]; [intros H; now injection H as <- <- <-|].
        destruct (num_params l <=? index); [|discriminate]. cbn [rassert].
        destruct (nl_back_params l og a r p) as [gp| |]; cbn [rbind]; try discriminate.
        destruct (write_block g (index - num_params l) (num_params l) (mdata gp)) as [g1| |] eqn:W; cbn [rbind]; try discriminate.
        destruct (nl_back_input l og a r p) as [og1| |]; cbn [rbind]; try discriminate. intros H. apply IH in H. rewrite H.
        unfold write_block in W. destruct (Nat.leb_spec (index - num_params l + num_params l) (length g)) as [LL|]; [|discriminate].
        destruct (Nat.eqb_spec (length (mdata gp)) (num_params l)) as [Ld|]; [|discriminate]. cbn [rassert] in W. injection W as <-.
        rewrite !app_length, firstn_length, map_length, skipn_length. lia. }
      rewrite (Q _ _ _ _ _ _ _ Eb). apply repeat_length. }
    pose proof (backward_untouched _ _ _ _ _ _ _ Eb i1 (le_n _)) as U. rewrite nth_repeat in U.
    assert (M : mmap m_written g' = MUB \/ exists e, mmap m_written g' = e /\ e = MUB).
    { left. assert (J : i1 < length g') by lia. clear -U J. revert i1 J U. induction g' as [|c g' IH]; intros i J U; cbn in J; [lia|].
      cbn [mmap]. destruct c as [x|]; cbn [m_written mbind]; auto. destruct i as [|i]; [discriminate|]. cbn in U. rewrite (IH i); auto; lia. }
    destruct M as [M|(e & M & ->)]; rewrite M; discriminate.
  Qed.
End NN.

(** ** Initialisers of k-means *)
Section KM.
  Context {F : Type} {N : Num F}.

  Lemma upd_some {A} (a : list A) i x : i < length a -> exists a', upd a i x = Some a' /\ length a' = length a.
  Proof.
    revert i. induction a as [|y a IH]; intros [|i] H; cbn in *; try lia; [eauto|]. destruct (IH i) as (a' & -> & L); [lia|].
    exists (y :: a'). split; auto. cbn. now rewrite L.
  Qed.
  Lemma rounds_ok k n : forall start a, length a = k -> forall r, outcome (m_partition_rounds k start n a) (Some r) -> exists a', r = MOk a'.
  Proof.
    induction n as [|n IH]; intros start a L r H; cbn [m_partition_rounds] in H.
    - inversion H; eauto.
    - cbn [gen_range rnd_bind] in H. inversion H; subst. unfold m_assign in H4. rewrite uget_in in H4 by lia.
      rewrite (ridx_nth _ _ []) in H4 by lia. cbn [lift mbind] in H4.
      destruct (upd_some a i (nth i a [] ++ [start])) as (a' & E & L'); [lia|]. rewrite E in H4. eapply IH; [|exact H4]. lia.
  Qed.
  Lemma rounds_plain k n : forall start a, length a = k -> forall r, outcome (m_partition_rounds k start n a) (Some (MOk r)) ->
    outcome (rnd_for start n (fun i a => let! idx := gen_range k in let! v := rnd_opt (nth_error a idx) in rnd_opt (upd a idx (v ++ [i]))) a) (Some r).
  Proof.
    induction n as [|n IH]; intros start a L r H; cbn [m_partition_rounds rnd_for] in *.
    - inversion H; subst. constructor.
    - cbn [gen_range rnd_bind] in *. inversion H; subst. apply out_gen with (i := i); [assumption|]. unfold m_assign in H4. rewrite uget_in in H4 by lia.
      rewrite (ridx_nth _ _ []) in H4 by lia. cbn [lift mbind] in H4. rewrite (nth_error_nth' a []) by lia. cbn [rnd_opt rnd_bind].
      destruct (upd_some a i (nth i a [] ++ [start])) as (a' & E & L'); [lia|]. rewrite E in H4 |- *. cbn [rnd_opt rnd_bind]. eapply IH; [|exact H4]. lia.
  Qed.
  Theorem partition_sound k n r : outcome (m_partition_loop k n) (Some r) -> exists a, r = MOk a /\ outcome (partition_loop k n) (Some a).
  Proof.
    intros H. assert (L : length (map (fun i => [i]) (seq 0 k)) = k) by now rewrite map_length, seq_length.
    destruct (rounds_ok _ _ _ _ L _ H) as (a & ->). exists a. split; [reflexivity|]. exact (rounds_plain _ _ _ _ L _ H).
  Qed.

  Lemma sample_loop_range (l : list F) : forall rand i t j, sample_loop rand i t l = Ok j -> i <= j < i + length l.
  Proof.
    induction l as [|p l IH]; intros rand i t j; cbn [sample_loop]; [discriminate|]. destruct nltb.
    - intros H. injection H as <-. cbn. lia.
    - intros H. apply IH in H. cbn. lia.
  Qed.
  Lemma chunk_rows cols (cens : list (list F)) : Forall (fun r => length r = cols) cens -> chunk (length cens) cols (concat cens) = cens.
  Proof. intros H. pose proof (chunk_concat cols cens [] H) as E. now rewrite app_nil_r in E. Qed.
  Lemma kpp_loop_sound (X : matrix F) : mwf X -> forall us i chosen cens, Forall (fun r => length r = mcols X) cens -> i = length cens ->
    m_kpp_loop X us i (concat cens) = lift (let? (_, c) := kpp_loop X us chosen cens in Ok (concat c)) /\
    (forall ch c, kpp_loop X us chosen cens = Ok (ch, c) -> Forall (fun r => length r = mcols X) c /\ length c = length cens + length us).
  Proof.
    intros W. assert (W' : forall r, In r (mrows X) -> length r = mcols X) by (unfold mwf in W; now rewrite Forall_forall in W).
    induction us as [|u us IH]; intros i chosen cens Fc ->; cbn [m_kpp_loop kpp_loop].
    - cbn [rbind lift]. split; auto. intros ch c H. injection H as <- <-. split; auto. cbn. lia.
    - assert (Lc : length (concat cens) = length cens * mcols X) by (now apply concat_len).
      unfold m_wslice. rewrite (proj2 (Nat.leb_le _ _)) by lia. cbn [mbind skipn]. rewrite chunk_rows by exact Fc.
      destruct (find_closest_centroids (Mat cens (mcols X)) X) as [[a ds]| |] eqn:E; cbn [lift mbind rbind]; try (split; [reflexivity|discriminate]).
      destruct (negb (forallb nfinite ds)); [split; [reflexivity|discriminate]|].
      destruct (sample_discretely ds u) as [nx| |] eqn:Es; cbn [lift mbind rbind]; try (split; [reflexivity|discriminate]).
      assert (Ln : nx < nrows X).
      { unfold find_closest_centroids in E. destruct (rmap _ (mrows X)) as [ps| |] eqn:Ep; cbn [rbind] in E; try discriminate.
        injection E as <- <-. apply rmap_len in Ep. unfold sample_discretely in Es. destruct (0 <? _); [|discriminate]. cbn [rassert] in Es.
        destruct (nltb nzero _); [|discriminate]. cbn [rassert] in Es. apply sample_loop_range in Es. rewrite map_length, Ep in Es. unfold nrows. lia. }
      rewrite uget_in by exact Ln. rewrite (ridx_nth _ _ []) by exact Ln. cbn [lift mbind rbind].
      assert (Lr : length (nth nx (mrows X) []) = mcols X) by (apply W'; now apply nth_In).
      destruct (IH (S (length cens)) (chosen ++ [nx]) (cens ++ [nth nx (mrows X) []])) as (I1 & I2).
      { apply Forall_app. split; auto. } { rewrite app_length. cbn. lia. }
      rewrite concat_app in I1. cbn [concat] in I1. rewrite app_nil_r in I1. split; [exact I1|].
      intros ch c H. apply I2 in H. destruct H as (H1 & H2). split; auto. rewrite app_length in H2. cbn in H2 |- *. lia.
  Qed.
  Theorem kpp_sound (X : matrix F) k first us : mwf X -> first < nrows X -> 1 <= k -> length us = k - 1 ->
    sound_as (m_kpp X k first us) (let? (_, c) := kpp X k first us in Ok c).
  Proof.
    intros W Hf K Lu. apply sound_lift. unfold m_kpp, kpp.
    rewrite uget_in by exact Hf. rewrite (ridx_nth _ _ []) by exact Hf. cbn [lift mbind rbind].
    assert (W' : forall r, In r (mrows X) -> length r = mcols X) by (unfold mwf in W; now rewrite Forall_forall in W).
    set (r := nth first (mrows X) []).
    assert (Lr : length r = mcols X) by (apply W'; now apply nth_In).
    destruct (kpp_loop_sound X W us 1 [first] [r]) as (I1 & I2); [now repeat constructor|reflexivity|].
    cbn [concat] in I1. rewrite app_nil_r in I1. rewrite I1. clear I1.
    destruct (kpp_loop X us [first] [r]) as [[ch c]| |] eqn:E; cbn [rbind lift mbind]; auto.
    destruct (I2 _ _ eq_refl) as (Fc & Lc). cbn in Lc. unfold mat_new. rewrite (concat_len (mcols X) c Fc).
    assert (Ek : length c = k) by lia. rewrite Ek, Nat.eqb_refl. cbn [rassert rbind lift]. rewrite <- Ek at 1. now rewrite chunk_rows.
  Qed.
End KM.
