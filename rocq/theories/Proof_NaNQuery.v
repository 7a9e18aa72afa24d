(** Lemmas for [Props_NaNSVM]: queries with NaN. *)
From Coq Require Import List Arith Lia Bool.
From Flocq Require Import Core BinarySingleNaN.
From Verif Require Import Base BaseLemmas Num NumF NumFn NumSign NumOrd Linalg LinalgR Model_Optim Model_Toolkit Model_Regression Model_GLM Model_Kernel Model_GP Model_SVM Spec_SVM Proof_SVM
  Model_NNet Proof_NNet Model_PCA Spec_Batch Proof_Batch Spec_NaN Proof_NaN Spec_NaNReg Proof_NaNReg Spec_NaNSVM Proof_NaNSVM.
Import ListNotations.

(** ** Models that multiply the row with their parameters *)
Lemma lin_rows (P : matrix B64) v out : mwf P -> rmat_vec (with_ones P) v = Ok out -> nan_rows P out.
Proof.
  unfold rmat_vec, rassert. cbn [mcols with_ones]. destruct (_ =? _) eqn:E; [|discriminate]. apply Nat.eqb_eq in E. intros W [= <-].
  unfold mat_vec, with_ones. cbn [mrows]. rewrite map_map. split; [now rewrite map_length|]. intros i Hi (j & Hj & H).
  rewrite (nth_map (fun x => dot (nonev :: x) v) (mrows P) i nzero []) by exact Hi. apply (nan_dot _ _ (S j)); [cbn; lia|rewrite (wf_row P i W Hi) in Hj; lia|left; exact H].
Qed.
Lemma nan_rows_map (P : matrix B64) out f : (forall x, nnan x = true -> nnan (f x) = true) -> nan_rows P out -> nan_rows P (map f out).
Proof.
  intros Hf (L & H). split; [now rewrite map_length|]. intros i Hi Hn. rewrite (nth_map f out i nzero nzero) by lia. apply Hf. now apply H.
Qed.
Theorem lin_query (self : LinRegressor B64) P out : mwf P -> lr_predict self P = Ok out -> nan_rows P out.
Proof. unfold lr_predict. destruct (lr_parameters self) as [v|]; [|discriminate]. intros W. now apply lin_rows. Qed.

Section Fn.
  Context {NF : NumFn B64}.
  Theorem log_query : libm_nan -> forall (self : LogisticRegressor B64) P out, mwf P -> log_predict self P = Ok out -> nan_rows P out.
  Proof.
    intros LN self P out W. unfold log_predict. destruct (log_parameters self) as [v|]; [|discriminate]. destruct (rmat_vec _ _) as [z| |] eqn:E; try discriminate. intros [= <-].
    apply nan_rows_map; [apply sigmoid_nan, LN|]. eapply lin_rows; eassumption.
  Qed.
  Theorem glm_query : libm_nan -> forall (cr : Model_GLM.Criterion B64), In (cr_link cr) [Model_GLM.Identity; Model_GLM.Logit; Model_GLM.Log] ->
    forall (self : GenLinearModel B64) P out, mwf P -> glm_predict cr self P = Ok out -> nan_rows P out.
  Proof.
    intros LN cr HC self P out W. unfold glm_predict. destruct (glm_parameters self) as [v|]; [|discriminate]. destruct (rmat_vec _ _) as [z| |] eqn:E; try discriminate. intros [= <-].
    apply nan_rows_map; [|eapply lin_rows; eassumption]. destruct HC as [<-|[<-|[<-|[]]]]; intros x Hx; unfold Model_GLM.Logit, Model_GLM.Log; cbn [lk_inv].
    - exact Hx.
    - apply nan_div. right. apply nan_add. right. apply LN. now apply nan_opp.
    - now apply LN.
  Qed.
End Fn.

(** ** Kernel models *)
Theorem gp_query (ker : Kernel B64) k mean (self : GaussianProcess B64) T P out : gp_train_data self = Some T -> mwf T -> 0 < nrows T -> mwf P ->
  ker_on ker k (mcols T) -> passes_nan k (mcols T) -> length (mean P) = nrows P -> gp_predict ker mean self P = Ok out -> nan_rows P out.
Proof.
  intros ET WT NT WP Hk Hp Lm. unfold gp_predict. rewrite ET. destruct (gp_alpha self) as [alpha|]; [|discriminate].
  destruct (Nat.eq_dec (mcols P) (mcols T)) as [C|C].
  2:{ unfold ker_mat. apply Nat.eqb_neq in C. rewrite C. discriminate. }
  rewrite (ker_mat_on ker k (mcols T) P T WP WT C eq_refl Hk). cbn [rbind]. unfold rmat_vec, rassert. cbn [mcols].
  destruct (_ =? _) eqn:E; [|discriminate]. apply Nat.eqb_eq in E. cbn [rbind]. unfold rvadd, rassert. destruct (_ =? _) eqn:E2; [|discriminate]. intros [= <-].
  unfold mat_vec. cbn [mrows]. rewrite map_map. split; [unfold vadd; rewrite map2_length, map_length, Lm; fold (nrows P); lia|]. intros i Hi Hn.
  unfold vadd. rewrite map2_nth with (da := nzero) (db := nzero) by (rewrite ?map_length; fold (nrows P); lia). apply nan_add. right.
  match goal with |- context [map ?f (mrows P)] => rewrite (nth_map f (mrows P) i nzero []) by exact Hi end.
  apply (nan_dot _ _ 0); [rewrite map_length; exact NT|lia|left]. rewrite (nth_map (k (nth i (mrows P) [])) (mrows T) 0 nzero []) by exact NT.
  apply Hp; [rewrite (wf_row P i WP Hi); exact C|exact (wf_row T 0 WT NT)|now left].
Qed.

(** ** Matrix products *)
Lemma mul_nan (a b : matrix B64) out : mwf a -> rmat_mul a b = Ok out -> nan_rows_mat a out /\ mwf out /\ mcols out = mcols b.
Proof.
  unfold rmat_mul, rassert. destruct (_ =? _) eqn:E; [|discriminate]. apply Nat.eqb_eq in E. intros W [= <-]. split; [|split; [apply mul_wf|reflexivity]].
  split; [unfold nrows, mat_mul; cbn; apply map_length|]. intros i Hi (j & Hj & H). unfold mat_mul. cbn [mrows].
  match goal with |- context [map ?f (mrows a)] => rewrite (nth_map f (mrows a) i [] []) by exact Hi end.
  apply Forall_forall. intros x Hx. apply in_map_iff in Hx. destruct Hx as (c & <- & _). rewrite (wf_row a i W Hi) in Hj.
  apply (nan_dot _ _ j); [now rewrite (wf_row a i W Hi)|unfold col; rewrite map_length; fold (nrows b); lia|now left].
Qed.
Theorem pca_query (self : PCA B64) P out : mwf P -> pca_predict self P = Ok out -> nan_rows_mat P out.
Proof.
  intros W. unfold pca_predict. destruct (pca_n_features self) as [f|]; [|discriminate]. destruct (negb _); [discriminate|]. destruct (pca_components self) as [comp|]; [|discriminate].
  destruct (pca_center self).
  - destruct (pca_centers self) as [cs|]; [|discriminate]. unfold centering, rassert. destruct (_ <=? _) eqn:E; [|discriminate]. apply Nat.leb_le in E. cbn [rbind].
    set (Q := Mat (map (fun r => vsub r cs) (mrows P)) (mcols P)).
    assert (WQ : mwf Q). { apply Forall_forall. intros r Hr. cbn in Hr. apply in_map_iff in Hr. destruct Hr as (x & <- & Hx). unfold vsub. rewrite map2_length.
      unfold mwf in W. rewrite Forall_forall in W. rewrite (W x Hx). cbn. lia. }
    assert (HQ : nrows Q = nrows P) by (unfold nrows; cbn; apply map_length).
    assert (G : nan_rows_mat Q out -> nan_rows_mat P out).
    { intros (L & H). split; [congruence|]. intros i Hi (j & Hj & Hn). apply H; [congruence|]. cbn [Q mrows]. rewrite (nth_map (fun r => vsub r cs) (mrows P) i [] []) by exact Hi.
      rewrite (wf_row P i W Hi) in Hj. exists j. unfold vsub. rewrite map2_length, (wf_row P i W Hi). split; [lia|].
      rewrite map2_nth with (da := nzero) (db := nzero) by (rewrite ?(wf_row P i W Hi); lia). apply nan_sub. now left. }
    destruct (pca_inv self); intros H; apply G; now apply mul_nan in H.
  - destruct (pca_inv self); intros H; now apply mul_nan in H.
Qed.

(** ** Networks *)
Section Net.
  Context {NF : NumFn B64}.
  Definition carries (l : NetLayer B64) : Prop :=
    (exists s, l = linear_layer s /\ 0 < ln_output_size s) \/ (exists a, l = activ_layer a /\ forall x, nnan x = true -> nnan (af a x) = true).
  Definition all_row (M : matrix B64) (i : nat) : Prop := Forall (fun x => nnan x = true) (nth i (mrows M) []).
  Lemma all_has (M : matrix B64) i : mwf M -> i < nrows M -> 0 < mcols M -> all_row M i -> has_nan (nth i (mrows M) []).
  Proof.
    intros W Hi Hc H. exists 0. rewrite (wf_row M i W Hi). split; [exact Hc|]. unfold all_row in H. rewrite Forall_forall in H. apply H, nth_In. rewrite (wf_row M i W Hi). exact Hc.
  Qed.
  Lemma linear_nan s Pm M D : 0 < ln_output_size s -> mcols Pm = ln_output_size s -> mwf M -> linear_forward s M Pm = Ok D ->
    mwf D /\ nrows D = nrows M /\ 0 < mcols D /\ forall i, i < nrows M -> has_nan (nth i (mrows M) []) -> all_row D i.
  Proof.
    intros Hs HP W. unfold linear_forward. destruct (ln_has_bias s); (destruct (negb _); [discriminate|]); intros H.
    - apply mul_nan in H; [|now apply ones_wf]. destruct H as ((L & H) & WD & CD). assert (NO := with_ones_nrows M). split; [exact WD|]. split; [congruence|]. split; [lia|].
      intros i Hi Hn. apply H; [congruence|]. rewrite with_ones_row by exact Hi. now apply has_nan_cons.
    - apply mul_nan in H; [|exact W]. destruct H as ((L & H) & WD & CD). split; [exact WD|]. split; [exact L|]. split; [lia|exact H].
  Qed.
  Lemma layer_nan l Pm M D : carries l -> mcols Pm = snd (nl_param_shape l) -> mwf M -> 0 < mcols M -> nl_forward l M Pm = Ok D ->
    mwf D /\ nrows D = nrows M /\ 0 < mcols D /\ forall i, i < nrows M -> all_row M i -> all_row D i.
  Proof.
    intros [(s & -> & Hs)|(a & -> & Ha)] HP W Hc H.
    - destruct (linear_nan s Pm M D Hs HP W H) as (WD & L & CD & Q). split; [exact WD|]. split; [exact L|]. split; [exact CD|]. intros i Hi HA. apply Q; [exact Hi|].
      now apply all_has.
    - cbn in H. assert (E : activ_forward a M Pm = Ok (Mat (map (map (af a)) (mrows M)) (mcols M))).
      { unfold activ_forward, mdata. rewrite concat_map. replace (nrows M) with (length (map (map (af a)) (mrows M))) by apply map_length. apply Proof_NNet.mat_new_concat.
        apply Forall_forall. intros r Hr. apply in_map_iff in Hr as (x & <- & Hx). rewrite map_length. exact (proj1 (Forall_forall _ _) W x Hx). }
      rewrite E in H. injection H as <-. split.
      { apply Forall_forall. intros r Hr. cbn in Hr. apply in_map_iff in Hr as (x & <- & Hx). rewrite map_length. exact (proj1 (Forall_forall _ _) W x Hx). }
      split; [unfold nrows; cbn; apply map_length|]. split; [exact Hc|]. intros i Hi HA. unfold all_row in *. cbn [mrows].
      rewrite (nth_map (map (af a)) (mrows M) i [] []) by exact Hi. apply Forall_map. eapply Forall_impl; [|exact HA]. intros x Hx. now apply Ha.
  Qed.
  Lemma rest_nan ws ls : Forall carries ls -> forall idx M D, mwf M -> 0 < mcols M -> forward_rest ws ls idx M = Ok D ->
    nrows D = nrows M /\ forall i, i < nrows M -> all_row M i -> all_row D i.
  Proof.
    induction 1 as [|l ls Hl _ IH]; intros idx M D W Hc; cbn [forward_rest].
    - intros [= <-]. auto.
    - unfold wslice, rassert. destruct (_ <=? _); cbn [rbind]; [|discriminate]. destruct (nl_forward l M _) as [A| |] eqn:E; try discriminate. intros H.
      destruct (fun q => layer_nan l _ M A Hl q W Hc E) as (WA & LA & CA & QA); [reflexivity|]. destruct (IH _ _ _ WA CA H) as (LD & QD). split; [congruence|].
      intros i Hi HA. apply QD; [congruence|]. now apply QA.
  Qed.
  Theorem net_query (net : BaseNeuralNet B64) s ls P out : nn_layers net = linear_layer s :: ls -> 0 < ln_output_size s -> Forall carries ls -> mwf P ->
    net_predict net P = Ok out -> nan_rows_mat P out.
  Proof.
    intros EL Hs HL W. unfold net_predict, forward_prop. rewrite EL. unfold wslice, rassert. destruct (_ <=? _); cbn [rbind]; [|discriminate].
    destruct (nl_forward _ P _) as [A| |] eqn:E; cbn [rbind]; try discriminate. intros H.
    destruct (fun q => linear_nan s _ P A Hs q W E) as (WA & LA & CA & QA); [reflexivity|]. destruct (rest_nan _ _ HL _ _ _ WA CA H) as (LD & QD). split; [congruence|].
    intros i Hi Hn. apply QD; [congruence|]. now apply QA.
  Qed.
  Lemma mlp_carries (a : Activ B64) : (forall x, nnan x = true -> nnan (af a x) = true) -> forall sizes, Forall (fun n => 0 < n) sizes -> Forall carries (mlp_layers sizes a).
  Proof.
    intros Ha. induction sizes as [|x [|y s] IH]; intros H; [constructor|constructor|]. inversion H as [|? ? H1 H2]; subst. inversion H2 as [|? ? H3 H4]; subst.
    cbn [mlp_layers]. constructor; [left; eexists; split; [reflexivity|exact H3]|]. constructor; [right; exists a; auto|]. now apply IH.
  Qed.
  Theorem mlp_query : libm_nan -> (forall x : B64, nnan x = true -> nnan (ntanh x) = true) -> forall a, In a [Sigmoid; LinearAct; Exp; Tanh] ->
    forall rng x y s c (net0 net : BaseNeuralNet B64), Forall (fun n => 0 < n) (y :: s) -> net_mlp rng (x :: y :: s) c a = Ok net0 ->
    nn_layers net = nn_layers net0 -> forall P out, mwf P -> net_predict net P = Ok out -> nan_rows_mat P out.
  Proof.
    intros LN LT a Ia rng x y s c net0 net Hs HN EL P out W.
    assert (Ha : forall v : B64, nnan v = true -> nnan (af a v) = true).
    { destruct Ia as [<-|[<-|[<-|[<-|[]]]]]; intros v Hv; unfold Sigmoid, LinearAct, Exp, Tanh; cbn [af]; [|exact Hv|now apply LN|now apply LT]. apply nan_div. right. apply nan_add. right. apply LN. now apply nan_opp. }
    unfold net_mlp, rassert in HN. destruct (_ <=? _) in HN; [|discriminate]. assert (EN : net0 = net_add_layers rng (net_new c) (mlp_layers (x :: y :: s) a)) by congruence. clear HN. rewrite EN in EL. rewrite (add_layers_eq rng (mlp_layers (x :: y :: s) a)) in EL.
    change (nn_layers net = linear_layer (linear_new x y) :: activ_layer a :: mlp_layers (y :: s) a) in EL.
    inversion Hs as [|? ? H1 H2]; subst.
    apply (net_query net _ _ P out EL H1); [|exact W]. constructor; [right; exists a; auto|]. now apply mlp_carries.
  Qed.
End Net.
