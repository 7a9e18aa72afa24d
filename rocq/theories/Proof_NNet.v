(** * Weight layout, [remove_first_col] and forward propagation *)
From Coq Require Import List Arith Lia Bool Reals Lra.
From Verif Require Import Base BaseLemmas Num NumFn Linalg LinalgR Spec_Calc CalcR MatR Model_Toolkit Model_Optim
  Model_Regression Model_NNet Spec_NNet Proof_KMeans Proof_Toolkit.
Import ListNotations.

Section Generic.
  Context {F : Type} {N : Num F} {NF : NumFn F}.

  Lemma concat_len (c : nat) (rows : list (list F)) : Forall (fun r => length r = c) rows -> length (concat rows) = length rows * c.
  Proof. induction 1 as [|r rs H _ IH]; cbn; [reflexivity|]. rewrite app_length, IH, H. reflexivity. Qed.
  Lemma mdata_len (m : matrix F) : mwf m -> length (mdata m) = nrows m * mcols m.
  Proof. intros W. apply concat_len. exact W. Qed.
  Lemma chunk_len rows cols (d : list F) : length (chunk rows cols d) = rows.
  Proof. revert d; induction rows as [|r IH]; intros d; cbn; auto. Qed.
  Lemma chunk_wf rows cols (d : list F) : rows * cols <= length d -> Forall (fun r => length r = cols) (chunk rows cols d).
  Proof.
    revert d; induction rows as [|r IH]; intros d H; cbn in *; constructor.
    - rewrite firstn_length. lia.
    - apply IH. rewrite skipn_length. lia.
  Qed.
  Lemma chunk_concat cols (rows : list (list F)) rest : Forall (fun r => length r = cols) rows ->
    chunk (length rows) cols (concat rows ++ rest) = rows.
  Proof.
    induction 1 as [|r rs H _ IH]; cbn; [reflexivity|].
    rewrite <- app_assoc, <- H. rewrite firstn_app, Nat.sub_diag, firstn_all, skipn_app, Nat.sub_diag, skipn_all. cbn.
    rewrite app_nil_r. f_equal. rewrite H. exact IH.
  Qed.
  Lemma concat_chunk rows cols (d : list F) : rows * cols <= length d -> concat (chunk rows cols d) = firstn (rows * cols) d.
  Proof.
    revert d; induction rows as [|r IH]; intros d H; cbn in *; [reflexivity|].
    rewrite IH by (rewrite skipn_length; lia).
    rewrite <- (firstn_skipn cols d) at 3. rewrite firstn_app, firstn_length.
    rewrite firstn_firstn. replace (Nat.min (cols + r * cols) cols) with cols by lia.
    f_equal. f_equal. lia.
  Qed.
  Lemma skipn_skipn' {A} x y (l : list A) : skipn x (skipn y l) = skipn (y + x) l.
  Proof. revert l; induction y as [|y IH]; intros l; cbn; [reflexivity|]. destruct l; [apply skipn_nil|apply IH]. Qed.
  Lemma skipn_nth (k : nat) (l : list F) i d : nth i (skipn k l) d = nth (k + i) l d.
  Proof. revert l; induction k as [|k IH]; intros l; cbn; auto. destruct l; cbn; [destruct i; auto|apply IH]. Qed.
  Lemma firstn_nth (k : nat) (l : list F) i d : i < k -> nth i (firstn k l) d = nth i l d.
  Proof. revert l i; induction k as [|k IH]; intros l i H; [lia|]. destruct l, i; cbn; auto. apply IH. lia. Qed.
  Lemma chunk_nth rows cols (dt : list F) i j d : i < rows -> j < cols ->
    nth j (nth i (chunk rows cols dt) []) d = nth (i * cols + j) dt d.
  Proof.
    revert dt i; induction rows as [|r IH]; intros dt i Hi Hj; [lia|]. destruct i as [|i]; cbn.
    - apply firstn_nth. exact Hj.
    - rewrite IH by lia. rewrite skipn_nth. f_equal. lia.
  Qed.
  Lemma mat_new_concat (rows : list (list F)) cols : Forall (fun r => length r = cols) rows ->
    mat_new (length rows) cols (concat rows) = Ok (Mat rows cols).
  Proof.
    intros H. unfold mat_new. rewrite (concat_len cols) by exact H. rewrite Nat.eqb_refl. cbn.
    rewrite <- (app_nil_r (concat rows)), chunk_concat by exact H. reflexivity.
  Qed.

  (** ** remove_first_col *)
  Lemma ridx_mid (p j : list F) x s : ridx (p ++ j ++ x :: s) (length p + length j) = Ok x.
  Proof. unfold ridx. rewrite app_assoc, nth_error_app2; rewrite app_length; [|lia]. rewrite Nat.sub_diag. reflexivity. Qed.
  Lemma upd_mid (p : list F) y s x : upd (p ++ y :: s) (length p) x = Some (p ++ x :: s).
  Proof. induction p as [|a p IH]; cbn; [reflexivity|]. rewrite IH. reflexivity. Qed.

  Lemma rfc_tail cols n (t : list F) : forall i pre junk suf, 0 < cols -> (forall k, k < length t -> (i + k) mod cols <> 0) ->
    length pre + length junk = i -> junk <> [] ->
    exists junk', length junk' = length junk /\
    rfc_loop cols (length t + n) i (pre ++ junk ++ t ++ suf) (length junk) =
    rfc_loop cols n (i + length t) (pre ++ t ++ junk' ++ suf) (length junk).
  Proof.
    induction t as [|x t IH]; intros i pre junk suf Hc Hm Hi Hj.
    - exists junk. split; [reflexivity|]. cbn. rewrite Nat.add_0_r. reflexivity.
    - destruct junk as [|y junk]; [congruence|].
      destruct (IH (S i) (pre ++ [x]) (junk ++ [x]) suf) as (junk' & L & E); auto.
      + intros k Hk. replace (S i + k) with (i + S k) by lia. apply Hm. cbn. lia.
      + rewrite !app_length. cbn in *. lia.
      + destruct junk; discriminate.
      + exists junk'. rewrite app_length in L. cbn in L.
        split; [cbn [length]; lia|].
        cbn [length Nat.add rfc_loop]. replace (cols =? 0) with false by (symmetry; apply Nat.eqb_neq; lia). cbn [negb rassert].
        replace (i mod cols =? 0) with false.
        2:{ symmetry. apply Nat.eqb_neq. specialize (Hm 0). rewrite Nat.add_0_r in Hm. apply Hm. cbn. lia. }
        change (0 <? S (length junk)) with true. cbn iota.
        replace (ridx (pre ++ (y :: junk) ++ (x :: t) ++ suf) i) with (Ok x).
        2:{ symmetry. replace i with (length pre + length (y :: junk)) by exact Hi. apply (ridx_mid pre (y :: junk) x (t ++ suf)). }
        cbn [rbind]. replace (S (length junk) <=? i) with true by (symmetry; apply Nat.leb_le; cbn in Hi; lia). cbn [rassert].
        replace (i - S (length junk)) with (length pre) by (cbn in Hi; lia).
        cbn [app]. rewrite upd_mid.
        replace (length (junk ++ [x])) with (S (length junk)) in E by (rewrite app_length; cbn; lia).
        replace (pre ++ x :: junk ++ x :: t ++ suf) with ((pre ++ [x]) ++ (junk ++ [x]) ++ t ++ suf) by (rewrite <- !app_assoc; reflexivity).
        rewrite E. replace (i + S (length t)) with (S i + length t) by lia. f_equal.
        rewrite <- !app_assoc. reflexivity.
  Qed.

  Lemma rfc_rows cols (rows : list (list F)) : forall k pre junk, 0 < cols -> Forall (fun r => length r = cols) rows ->
    length junk = k -> length pre = k * (cols - 1) ->
    exists junk', length junk' = k + length rows /\
    rfc_loop cols (length (concat rows)) (k * cols) (pre ++ junk ++ concat rows) k =
    Ok (pre ++ concat (map (@tl F) rows) ++ junk', k + length rows).
  Proof.
    induction rows as [|r rows IH]; intros k pre junk Hc W Lj Lp.
    - exists junk. cbn. rewrite app_nil_r, Nat.add_0_r. auto.
    - inversion W as [|? ? Hr Wr]; subst. destruct r as [|x t]; [cbn in Hc; lia|]. cbn [concat map tl].
      cbn [length] in *.
      destruct (rfc_tail (S (length t)) (length (concat rows)) t (S (length junk * S (length t))) pre (junk ++ [x]) (concat rows)) as (j1 & L1 & E1).
      + lia.
      + intros q Hq. replace (S (length junk * S (length t)) + q) with (S q + length junk * S (length t)) by lia.
        rewrite Nat.mod_add by lia. rewrite Nat.mod_small by lia. lia.
      + rewrite app_length. cbn [length]. rewrite Lp. nia.
      + destruct junk; discriminate.
      + destruct (IH (S (length junk)) (pre ++ t) j1) as (j2 & L2 & E2); auto.
        * rewrite L1, app_length. cbn. lia.
        * rewrite app_length, Lp. nia.
        * exists j2. split; [lia|].
          rewrite app_length. cbn [length Nat.add app rfc_loop].
          change (S (length t) =? 0) with false. cbn [negb rassert].
          rewrite Nat.mod_mul by lia. cbn [Nat.eqb].
          replace (length (junk ++ [x])) with (S (length junk)) in E1 by (rewrite app_length; cbn; lia).
          replace (pre ++ junk ++ x :: t ++ concat rows) with (pre ++ (junk ++ [x]) ++ t ++ concat rows) by (rewrite <- !app_assoc; reflexivity).
          rewrite E1. replace (S (length junk * S (length t)) + length t) with (S (length junk) * S (length t)) by lia.
          replace (pre ++ t ++ j1 ++ concat rows) with ((pre ++ t) ++ j1 ++ concat rows) by (rewrite <- !app_assoc; reflexivity).
          rewrite E2. rewrite <- !app_assoc. do 2 f_equal. lia.
  Qed.

  Lemma tl_wf cols (rows : list (list F)) : Forall (fun r => length r = cols) rows -> Forall (fun r => length r = cols - 1) (map (@tl F) rows).
  Proof. induction 1 as [|r rs H _ IH]; cbn; constructor; auto. destruct r; cbn in *; lia. Qed.

  Theorem remove_first_col_ok (m : matrix F) : mwf m -> 1 <= mcols m ->
    remove_first_col m = Ok (Mat (map (@tl F) (mrows m)) (mcols m - 1)).
  Proof.
    intros W Hc. unfold remove_first_col. destruct m as [rows cols]. cbn [mcols mrows nrows] in *. unfold mwf in W. cbn in W.
    unfold mdata. cbn [mrows].
    destruct (rfc_rows cols rows 0 [] []) as (junk & L & E); auto. cbn [Nat.mul Nat.add app] in E, L. rewrite E. cbn [rbind].
    rewrite (proj2 (Nat.leb_le _ _) Hc). cbn [rassert].
    assert (D : (if 0 <? length rows then firstn (length (concat rows) - length rows) (concat (map (@tl F) rows) ++ junk)
                 else concat (map (@tl F) rows) ++ junk) = concat (map (@tl F) rows)).
    { destruct rows as [|r rows]; [destruct junk; [reflexivity|discriminate]|]. cbn [length]. change (0 <? S (length rows)) with true. cbn iota.
      rewrite (concat_len cols) by exact W. rewrite <- (app_nil_r (concat _)) at 2.
      replace (length (r :: rows) * cols - S (length rows)) with (length (concat (map (@tl F) (r :: rows))) + 0).
      - rewrite firstn_app_2. reflexivity.
      - rewrite (concat_len (cols - 1)) by (apply tl_wf; exact W). rewrite map_length. cbn [length]. nia. }
    cbn zeta in *. unfold nrows. cbn [mrows].
    match goal with |- mat_new _ _ ?d = _ => replace d with (concat (map (@tl F) rows)) end.
    rewrite <- (map_length (@tl F) rows). apply mat_new_concat. apply tl_wf. exact W.
  Qed.
  Theorem remove_first_col_no_cols (m : matrix F) : mwf m -> mcols m = 0 -> remove_first_col m = Panic.
  Proof.
    intros W H. unfold remove_first_col. rewrite mdata_len, H, Nat.mul_0_r by exact W. reflexivity.
  Qed.

  (** ** Weight layout *)
  Lemma add_layers_layers rng ls : forall net : BaseNeuralNet F, nn_layers (net_add_layers rng net ls) = nn_layers net ++ ls.
  Proof.
    induction ls as [|l ls IH]; intros net; cbn; [symmetry; apply app_nil_r|].
    unfold net_add_layers in IH. rewrite IH. cbn. rewrite <- app_assoc. reflexivity.
  Qed.
  Definition len_ok (net : BaseNeuralNet F) : Prop := length (nn_weights net) = list_sum (map num_params (nn_layers net)).
  Lemma list_sum_snoc l x : list_sum (l ++ [x]) = list_sum l + x.
  Proof. rewrite list_sum_app. cbn. lia. Qed.
  Lemma add_len rng (net : BaseNeuralNet F) l : len_ok net -> honest l -> len_ok (net_add rng net l).
  Proof. unfold len_ok, net_add. cbn [nn_weights nn_layers]. intros H Hl. rewrite app_length, H, Hl, map_app. cbn [map]. rewrite list_sum_snoc. reflexivity. Qed.
  Lemma add_layers_len rng ls : forall net : BaseNeuralNet F, len_ok net -> Forall honest ls -> len_ok (net_add_layers rng net ls).
  Proof.
    induction ls as [|l ls IH]; intros net H W; [exact H|]. inversion W; subst. cbn. apply IH; auto. apply add_len; auto.
  Qed.
  Lemma linear_honest l : honest (linear_layer l).
  Proof. intros d. cbn. unfold linear_default_params. rewrite map_length, seq_length. reflexivity. Qed.
  Lemma activ_honest a : honest (activ_layer a).
  Proof. intros d. reflexivity. Qed.
  Lemma to_layer_honest k : honest (to_layer k).
  Proof. destruct k as [i o []|a]; [apply linear_honest|apply linear_honest|apply activ_honest]. Qed.
  Lemma mlp_layers_honest sizes a : Forall honest (mlp_layers sizes a).
  Proof.
    induction sizes as [|x [|y s] IH]; cbn; auto. constructor; [apply linear_honest|]. constructor; [apply activ_honest|exact IH].
  Qed.
  Lemma mlp_len rng sizes c a net : net_mlp rng sizes c a = Ok net -> len_ok net.
  Proof.
    unfold net_mlp. destruct (1 <=? length sizes); cbn; [|discriminate]. intros E. apply Ok_inj in E. subst net.
    apply add_layers_len; [reflexivity|apply mlp_layers_honest].
  Qed.
  Lemma outcome_train opt (net : BaseNeuralNet F) X T net' : outcome (net_train opt net X T) (Some net') ->
    exists w, outcome (opt (net_compute_grad net) (nn_weights net) X T) (Some w) /\ net' = set_weights net w.
  Proof.
    unfold net_train. intros O. apply outcome_bind in O. destruct O as [(w & Ow & Oret)|[A _]]; [|discriminate].
    exists w. inversion Oret; subst. auto.
  Qed.
  Lemma reachable_len net : reachable net -> len_ok net.
  Proof.
    induction 1 as [c|rng s c a net E|rng s net E|rng net l _ IH H|rng net ls _ IH H|opt net X T net' _ IH K O].
    - reflexivity.
    - eapply mlp_len; eauto.
    - unfold net_default in E. eapply mlp_len; eauto.
    - apply add_len; auto.
    - apply add_layers_len; auto.
    - apply outcome_train in O. destruct O as (w & O & ->). apply K in O. unfold len_ok in *. exact (eq_trans O IH).
  Qed.

  Lemma firstn_nth_split {A} (l : list A) i x : nth_error l i = Some x -> l = firstn i l ++ x :: skipn (S i) l.
  Proof.
    revert i; induction l as [|a l IH]; intros [|i] H; cbn in *; try discriminate.
    - congruence.
    - f_equal. apply IH. exact H.
  Qed.
  Lemma wslice_ok (w : list F) start r c : start + r * c <= length w ->
    wslice w start r c = Ok (Mat (chunk r c (skipn start w)) c).
  Proof. intros H. unfold wslice. rewrite (proj2 (Nat.leb_le _ _) H). reflexivity. Qed.

  Lemma blocks_concat (w : list F) (ls : list (NetLayer F)) : forall start, start + list_sum (map num_params ls) = length w ->
    exists ms, rmap (fun p => wslice w (fst p) (fst (snd p)) (snd (snd p)))
                    (combine (map (fun i => start + list_sum (map num_params (firstn i ls))) (seq 0 (length ls))) (map nl_param_shape ls)) = Ok ms /\
               concat (map (fun m => concat (mrows m)) ms) = skipn start w.
  Proof.
    induction ls as [|l ls IH]; intros start H.
    - exists []. cbn in *. split; [reflexivity|]. symmetry. apply skipn_all2. lia.
    - cbn [map list_sum fold_right] in H. unfold list_sum in H. cbn [map fold_right] in H. change (fold_right Nat.add 0 (map num_params ls)) with (list_sum (map num_params ls)) in H.
      destruct (IH (start + num_params l)) as (ms & E & C); [lia|].
      cbn [length seq map combine firstn]. rewrite <- seq_shift, map_map.
      cbn [rmap fst snd]. unfold num_params in H at 1.
      rewrite wslice_ok. 2:{ cbn. lia. } cbn [rbind].
      match goal with |- context [rmap ?f ?l] => replace (rmap f l) with (Ok ms) end.
      + cbn [rbind]. eexists. split; [reflexivity|]. cbn [map concat mrows].
        rewrite C. rewrite concat_chunk by (rewrite skipn_length; cbn; lia).
        cbn [list_sum fold_right]. rewrite Nat.add_0_r. fold (num_params l). rewrite <- skipn_skipn'. apply firstn_skipn.
      + rewrite <- E. do 2 f_equal. apply map_ext. intros i. cbn [firstn map list_sum fold_right]. unfold list_sum. cbn. lia.
  Qed.

  Lemma rmap_seq_combine {A B} (ls : list A) (f : nat -> res B) (g : nat * A -> res B) s (h : nat -> nat) :
    (forall i a, nth_error ls i = Some a -> f (s + i) = g (h i, a)) ->
    rmap f (seq s (length ls)) = rmap g (combine (map h (seq 0 (length ls))) ls).
  Proof.
    revert s h; induction ls as [|a ls IH]; intros s h H; [reflexivity|].
    cbn [length seq map combine rmap]. rewrite <- (H 0 a) by reflexivity. rewrite Nat.add_0_r.
    rewrite <- (seq_shift (length ls) 0), map_map.
    rewrite (IH (S s) (fun x => h (S x))); [reflexivity|].
    intros i b Hb. rewrite <- (H (S i) b) by exact Hb. f_equal. lia.
  Qed.

  Theorem laid_out_len (net : BaseNeuralNet F) : len_ok net -> laid_out net.
  Proof.
    intros H. unfold laid_out. split; [exact H|].
    assert (G : forall idx l, nth_error (nn_layers net) idx = Some l ->
      get_net_weights net idx = wslice (nn_weights net) (list_sum (map num_params (firstn idx (nn_layers net)))) (fst (nl_param_shape l)) (snd (nl_param_shape l))).
    { intros idx l E. unfold get_net_weights, get_layer_weights, ridx. rewrite E. reflexivity. }
    assert (B : forall idx l, nth_error (nn_layers net) idx = Some l ->
      list_sum (map num_params (firstn idx (nn_layers net))) + fst (nl_param_shape l) * snd (nl_param_shape l) <= length (nn_weights net)).
    { intros idx l E. unfold len_ok in H. rewrite (firstn_nth_split _ _ _ E), map_app, list_sum_app in H. cbn in H. unfold num_params at 2 in H. lia. }
    split; [|split].
    - intros idx l E. specialize (B idx l E). rewrite (G idx l E), wslice_ok by exact B.
      eexists. split; [reflexivity|].
      assert (L : fst (nl_param_shape l) * snd (nl_param_shape l) <= length (skipn (list_sum (map num_params (firstn idx (nn_layers net)))) (nn_weights net))).
      { rewrite skipn_length. lia. }
      split; [apply chunk_wf; exact L|]. split; [apply chunk_len|]. split; [reflexivity|].
      intros i j d Hi Hj. cbn [mrows mcols nrows] in *. unfold nrows in Hi. cbn in Hi. rewrite chunk_len in Hi.
      rewrite chunk_nth by assumption. rewrite skipn_nth. f_equal. lia.
    - intros idx Hi. unfold get_net_weights, get_layer_weights, ridx. rewrite (proj2 (nth_error_None _ _) Hi). reflexivity.
    - destruct (blocks_concat (nn_weights net) (nn_layers net) 0) as (ms & E & C); [symmetry; exact H|].
      exists ms. split; [|exact C]. rewrite <- E. cbn [Nat.add].
      rewrite <- (map_length nl_param_shape (nn_layers net)).
      apply (rmap_seq_combine (map nl_param_shape (nn_layers net)) _ _ 0).
      intros i a Ha. rewrite nth_error_map in Ha. destruct (nth_error (nn_layers net) i) as [l|] eqn:El; [|discriminate].
      cbn in Ha. injection Ha as <-. exact (G i l El).
  Qed.
End Generic.
