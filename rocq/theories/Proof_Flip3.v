(** Statements of [Props_Flip] and concrete cases. *)
From Coq Require Import List Arith Lia Bool Reals Lra.
From Verif Require Import Base BaseLemmas Num NumFn Linalg LinalgR Spec_Calc CalcR MatR Model_Rand Model_Toolkit Model_Optim Model_Cost Model_CG
  Model_NNet Spec_NNet Spec_OptEq Spec_DBSCAN2 Proof_KMeans Proof_Toolkit Proof_NNet Proof_NNet2 Proof_NNet3 Proof_NNet4 Proof_NNet5
  Proof_KerInv Proof_OptEq Proof_OptEq2 Spec_NNetSym Proof_NNetSym Proof_NNetSym2 Proof_NNetSym3 Spec_Flip Proof_Flip Proof_Flip2.
Import ListNotations.
Local Open Scope R_scope.

Lemma odd_activs : odd_activ Tanh /\ odd_activ LinearAct /\ ~ odd_activ Sigmoid /\ ~ odd_activ Exp.
Proof.
  split; [|split; [|split]].
  - intros x. cbn [Tanh af]. change (ntanh (- x)) with (tanh (- x)). change (ntanh x) with (tanh x). unfold tanh, sinh, cosh. rewrite Ropp_involutive.
    pose proof (exp_pos x). pose proof (exp_pos (- x)). field. lra.
  - intros x. reflexivity.
  - intros H. specialize (H 0). cbn [Sigmoid af] in H. rewrite Ropp_0 in H. pose proof (sigmoid_range 0). lra.
  - intros H. specialize (H 0). cbn [Exp af] in H. change (nexp ?y) with (exp y) in H. rewrite Ropp_0, exp_0 in H. lra.
Qed.
Theorem flipped_predict (net : BaseNeuralNet R) ks p ss X c : nn_layers net = map to_layer ks -> length (nn_weights net) = total_params ks -> mwf X ->
  widths ks (mcols X) = Some c -> length p = mcols X -> signs_fit ks p ss ->
  exists Y, net_predict net X = Ok Y /\
    net_predict (set_weights net (flipped (weight_signs ks p ss) (nn_weights net))) (flip_rows p X) = Ok (flip_rows (output_signs ks p ss) Y).
Proof.
  intros HL Lw W HW Hp Hf. destruct (predict_flip net ks p ss (mcols X) c HL Hp Hf HW (nn_weights net) X Lw W eq_refl) as (Y & E & _ & E'). exists Y. split; [|exact E'].
  rewrite <- E. destruct net; reflexivity.
Qed.
Theorem flipped_train opt (net : BaseNeuralNet R) ks r p ss X T c : crate_optimiser opt -> nn_layers net = map to_layer ks -> ks <> [] -> Forall smooth_kind ks ->
  proper_criterion net ks r -> even_reg r -> length (nn_weights net) = total_params ks -> mwf X -> (0 < nrows X)%nat -> widths ks (mcols X) = Some c ->
  mwf T -> nrows T = nrows X -> mcols T = c -> length p = mcols X -> signs_fit ks p ss ->
  net_train opt (set_weights net (flipped (weight_signs ks p ss) (nn_weights net))) (flip_rows p X) (flip_rows (output_signs ks p ss) T) =
    (let! m := net_train opt net X T in RRet (set_weights m (flipped (weight_signs ks p ss) (nn_weights m)))).
Proof.
  intros HO HL Ne Sm HC HR Lw W Hn HW WT RT CT Hp Hf. unfold net_train. cbn [nn_weights set_weights].
  change (net_compute_grad (set_weights net ?v)) with (net_compute_grad net).
  rewrite (train_flip net ks r p ss (mcols X) c HL Hp Hf HW HC HR Sm Ne opt (nn_weights net) X T HO Lw W eq_refl Hn (conj WT (conj RT CT))).
  rewrite !rnd_bind_assoc. reflexivity.
Qed.

(** ** Weights that stay zero *)
Lemma flip_fixed : forall bs v k, flipped bs v = v -> nth k bs false = true -> nth k v 0 = 0.
Proof.
  induction bs as [|b bs IH]; intros [|x v] k E H; try (destruct k; [reflexivity|reflexivity]); [destruct k; discriminate|]. unfold flipped in E. cbn [map2] in E. injection E as E1 E2.
  destruct k as [|k]; cbn [nth] in *; [subst b; lra|]. now apply IH.
Qed.
Lemma fixed_flip bs v : length bs = length v -> (forall k, nth k bs false = true -> nth k v 0 = 0) -> flipped bs v = v.
Proof. intros L H. apply flip_ext; auto. intros k Hk. destruct (nth k bs false) eqn:E; cbn [sg]; [rewrite H by auto; lra|lra]. Qed.
Lemma no_true n : ~ In true (repeat false n).
Proof. intros H. apply repeat_spec in H. discriminate. Qed.
Theorem dead_weights opt (net m : BaseNeuralNet R) ks r ss X T c : crate_optimiser opt -> nn_layers net = map to_layer ks -> ks <> [] -> Forall smooth_kind ks ->
  proper_criterion net ks r -> even_reg r -> length (nn_weights net) = total_params ks -> mwf X -> (0 < nrows X)%nat -> widths ks (mcols X) = Some c ->
  mwf T -> nrows T = nrows X -> mcols T = c ->
  signs_fit ks (repeat false (mcols X)) ss -> ~ In true (output_signs ks (repeat false (mcols X)) ss) ->
  (forall k, nth k (weight_signs ks (repeat false (mcols X)) ss) false = true -> nth k (nn_weights net) 0 = 0) ->
  outcome (net_train opt net X T) (Some m) ->
  forall k, nth k (weight_signs ks (repeat false (mcols X)) ss) false = true -> nth k (nn_weights m) 0 = 0.
Proof.
  intros HO HL Ne Sm HC HR Lw W Hn HW WT RT CT Hf HOo HS Hm k Hk. set (p := repeat false (mcols X)) in *.
  assert (Lp : length p = mcols X) by apply repeat_length. destruct (signs_length ks p ss _ _ Lp Hf HW) as (LW & LO).
  pose proof (flipped_train opt net ks r p ss X T c HO HL Ne Sm HC HR Lw W Hn HW WT RT CT Lp Hf) as E.
  rewrite (fixed_flip _ (nn_weights net)) in E by (auto; lia). rewrite (flip_rows_none (nrows X) (mcols X) p X Lp (conj W (conj eq_refl eq_refl)) (no_true _)) in E.
  rewrite (flip_rows_none (nrows X) c _ T LO (conj WT (conj RT CT)) HOo) in E.
  replace (set_weights net (nn_weights net)) with net in E by (destruct net; reflexivity).
  pose proof (fixed_outcome _ _ E m Hm) as K. apply (flip_fixed (weight_signs ks p ss)); auto. rewrite <- K at 2. reflexivity.
Qed.

(** ** Nothing but the output bias *)
Lemma signs_fit_false : forall ks n, signs_fit ks (repeat false n) [].
Proof. induction ks as [|[i o b|a] ks IH]; intros n; cbn [signs_fit]; auto; [split; [apply repeat_length|apply IH]|split; [right; apply no_true|apply IH]]. Qed.
Lemma output_signs_false : forall ks n, ~ In true (output_signs ks (repeat false n) []).
Proof. induction ks as [|[i o b|a] ks IH]; intros n; cbn [output_signs]; [apply no_true|apply IH|apply IH]. Qed.
Lemma weight_signs_false : forall ks n k, nth k (weight_signs ks (repeat false n) []) false = false.
Proof.
  induction ks as [|[i o b|a] ks IH]; intros n k; cbn [weight_signs next_signs hd tl]; [now destruct k| |apply IH].
  destruct (le_lt_dec (length (layer_signs b (repeat false n) (repeat false o))) k) as [H|H]; [rewrite app_nth2 by auto; apply IH|]. rewrite app_nth1 by auto.
  assert (Hx : In (nth k (layer_signs b (repeat false n) (repeat false o)) false) (layer_signs b (repeat false n) (repeat false o))) by now apply nth_In.
  revert Hx. generalize (nth k (layer_signs b (repeat false n) (repeat false o)) false). intros x Hx.
  unfold layer_signs in Hx. apply in_flat_map in Hx. destruct Hx as (e & He & Hx). apply in_map_iff in Hx. destruct Hx as (t & <- & Ht). apply repeat_spec in Ht. subst t.
  assert (Ee : e = false); [|now subst e]. apply in_app_or in He. destruct He as [He|He]; [destruct b; [destruct He as [<-|[]]; reflexivity|destruct He]|now apply repeat_spec in He].
Qed.
Lemma map_const_repeat {A B} (y : B) (l : list A) : map (fun _ => y) l = repeat y (length l).
Proof. induction l as [|x l IH]; [reflexivity|]. cbn [map length repeat]. now rewrite IH. Qed.
Lemma nth_all_true l k : (forall b, In b l -> b = true) -> (k < length l)%nat -> nth k l false = true.
Proof. intros H Hk. apply H, nth_In, Hk. Qed.
Theorem zero_start opt (net m : BaseNeuralNet R) d h a b b' o ks r X T c : crate_optimiser opt ->
  nn_layers net = map to_layer (KLinear d h b :: KActiv a :: KLinear h o b' :: ks) -> odd_activ a -> smooth_activ a -> Forall smooth_kind ks ->
  proper_criterion net (KLinear d h b :: KActiv a :: KLinear h o b' :: ks) r -> even_reg r ->
  length (nn_weights net) = total_params (KLinear d h b :: KActiv a :: KLinear h o b' :: ks) ->
  (forall k, (k < (bias_rows b + d) * h + (bias_rows b' + h) * o)%nat -> nth k (nn_weights net) 0 = 0) ->
  mwf X -> (0 < nrows X)%nat -> mcols X = d -> widths ks o = Some c -> mwf T -> nrows T = nrows X -> mcols T = c ->
  outcome (net_train opt net X T) (Some m) ->
  forall Q, mwf Q -> mcols Q = d -> exists y, net_predict m Q = Ok (Mat (repeat y (nrows Q)) c).
Proof.
  intros HO HL Ha Sa Sm HC HR Lw Hz W Hn C HW WT RT CT Hm Q WQ CQ. set (ks' := KLinear d h b :: KActiv a :: KLinear h o b' :: ks) in *.
  assert (HWd : widths ks' d = Some c) by (unfold ks'; cbn [widths out_width]; now rewrite !Nat.eqb_refl).
  set (ss := [repeat true h]).
  assert (Hf : signs_fit ks' (repeat false d) ss).
  { unfold ks', ss. cbn [signs_fit next_signs hd tl]. split; [apply repeat_length|]. split; [now left|]. split; [apply repeat_length|]. apply signs_fit_false. }
  assert (Hos : ~ In true (output_signs ks' (repeat false d) ss)) by (unfold ks', ss; cbn [output_signs next_signs hd tl]; apply output_signs_false).
  pose proof (outcome_train opt net X T m Hm) as (v & Hv & Em).
  assert (Lv : length v = total_params ks').
  { apply (train_len net ks' r (repeat false d) ss d c HL) with (opt := opt) (w := nn_weights net) (X := X) (T := T); auto; [apply repeat_length|repeat constructor; auto|discriminate|split; auto]. }
  assert (Z : forall k, (k < (bias_rows b + d) * h)%nat -> nth k v 0 = 0).
  { intros k Hk. replace v with (nn_weights m) by (rewrite Em; reflexivity). subst d.
    assert (Hws : forall j, nth j (weight_signs ks' (repeat false (mcols X)) ss) false = true -> (j < (bias_rows b + mcols X) * h + (bias_rows b' + h) * o)%nat).
    { intros j Hj. destruct (le_lt_dec ((bias_rows b + mcols X) * h + (bias_rows b' + h) * o) j) as [Hl|Hl]; [exfalso|exact Hl].
      unfold ks', ss in Hj. cbn [weight_signs next_signs hd tl] in Hj.
      rewrite app_nth2 in Hj by (rewrite layer_signs_length, !repeat_length; lia). rewrite app_nth2 in Hj by (rewrite !layer_signs_length, !repeat_length; lia).
      revert Hj. rewrite (weight_signs_false ks). discriminate. }
    apply (dead_weights opt net m ks' r ss X T c HO HL); auto; [discriminate|repeat constructor; auto|].
    unfold ks', ss. cbn [weight_signs next_signs hd tl]. rewrite app_nth1 by (rewrite layer_signs_length, !repeat_length; lia).
    apply nth_all_true; [|rewrite layer_signs_length, !repeat_length; lia].
    intros x Hx. unfold layer_signs in Hx. apply in_flat_map in Hx. destruct Hx as (e & He & Hx). apply in_map_iff in Hx. destruct Hx as (t & <- & Ht). apply repeat_spec in Ht. subst t.
    assert (Ee : e = false); [|now subst e]. apply in_app_or in He. destruct He as [He|He]; [destruct b; [destruct He as [<-|[]]; reflexivity|destruct He]|now apply repeat_spec in He]. }
  exists (net_row (KActiv a :: KLinear h o b' :: ks) (skipn ((bias_rows b + d) * h) v) (repeat 0 h)).
  rewrite (predict_rows m ks' Q c); [|rewrite Em; exact HL|rewrite Em; exact Lv|auto|now rewrite CQ]. do 2 f_equal.
  unfold nrows. rewrite <- map_const_repeat. apply map_ext_in. intros x Hx. rewrite Em. cbn [nn_weights set_weights]. unfold ks'. generalize (KActiv a :: KLinear h o b' :: ks). intros rest. cbn [net_row]. f_equal.
  apply (nth_ext _ _ 0 0); [rewrite map_length, seq_length, repeat_length; reflexivity|]. rewrite map_length, seq_length. intros j Hj. rewrite nth_map_seq by auto. rewrite nth_repeat.
  assert (S0 : sumR d (fun k => nth k x 0 * nth ((bias_rows b + k) * h + j) v 0) = 0).
  { apply sumR_zero. intros k Hk. rewrite Z by nia. ring. }
  rewrite S0. destruct b; [rewrite Z by (cbn; nia)|]; ring.
Qed.

(** ** A concrete network: two inputs, two hidden tanh units, one output *)
Definition kst : list (LayerKind R) := [KLinear 2 2 true; KActiv Tanh; KLinear 2 1 true].
Definition nett (w : list R) (r : Regularization R) : BaseNeuralNet R := {| nn_layers := map to_layer kst; nn_weights := w; nn_criterion := MSECriterion r |}.
Lemma kst_ok : kst <> [] /\ Forall smooth_kind kst /\ total_params kst = 9%nat /\ widths kst 2 = Some 1%nat /\ signs_fit kst [true; false] [[true; false]; [true]] /\
  signs_fit kst [false; false] [[true; false]] /\ (forall w r, proper_criterion (nett w r) kst r) /\ even_reg (RegL2 1).
Proof.
  split; [discriminate|]. split; [repeat constructor; apply tanh_smooth|]. split; [reflexivity|]. split; [reflexivity|].
  split; [cbn; split; [reflexivity|]; split; [left; apply odd_activs|]; split; [reflexivity|exact I]|].
  split; [cbn; split; [reflexivity|]; split; [left; apply odd_activs|]; split; [reflexivity|exact I]|]. split; [intros w r; left; reflexivity|exact I].
Qed.
(** Hidden unit 0, input 0 and the output change their signs. *)
Lemma flip_t : flipped (weight_signs kst [true; false] [[true; false]; [true]]) w221 = [-1; 2; 3; - (4); -5; 6; -7; 8; -9] /\ output_signs kst [true; false] [[true; false]; [true]] = [true].
Proof. split; reflexivity. Qed.
(** Hidden unit 0 is dead. *)
Definition dead_t : list R := [0; 2; 0; 4; 0; 6; 7; 0; 9].
Lemma dead_ok : weight_signs kst [false; false] [[true; false]] = [true; false; true; false; true; false; false; true; false] /\
  output_signs kst [false; false] [[true; false]] = [false] /\ forall k, nth k (weight_signs kst [false; false] [[true; false]]) false = true -> nth k dead_t 0 = 0.
Proof.
  split; [reflexivity|]. split; [reflexivity|]. intros k H. cbn in H. do 9 (destruct k as [|k]; [cbn in *; try discriminate; reflexivity|]). destruct k; discriminate.
Qed.
