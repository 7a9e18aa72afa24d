(** Statements of [Props_NNetSym] and concrete cases. *)
From Coq Require Import List Arith Lia Bool Permutation Reals Lra.
From Verif Require Import Base BaseLemmas Num NumFn Linalg LinalgR Spec_Calc CalcR MatR Model_Rand Model_Toolkit Model_Optim Model_Cost Model_CG
  Model_NNet Spec_NNet Spec_OptEq Spec_DBSCAN2 Proof_KMeans Proof_NNet Proof_NNet2 Proof_NNet3 Proof_NNet4 Proof_NNet5
  Proof_KerInv Proof_OptEq Proof_OptEq2 Spec_NNetSym Proof_NNetSym Proof_NNetSym2.
Import ListNotations.
Local Open Scope R_scope.

Theorem relabelled_predict (net : BaseNeuralNet R) ks p qs X c : nn_layers net = map to_layer ks -> length (nn_weights net) = total_params ks -> mwf X ->
  widths ks (mcols X) = Some c -> Permutation p (seq 0 (mcols X)) -> orders_fit ks qs ->
  exists Y, net_predict net X = Ok Y /\
    net_predict (set_weights net (arrange (weight_order ks p qs) (nn_weights net))) (map_rows (mcols X) (arrange p) X) = Ok (map_rows c (arrange (output_order ks p qs)) Y).
Proof.
  intros HL Lw W HW Hp Hf. destruct (predict_arr net ks p qs (mcols X) c HL Hp Hf HW (nn_weights net) X Lw W eq_refl) as (Y & E & _ & E'). exists Y. split; [|exact E'].
  rewrite <- E. destruct net; reflexivity.
Qed.
Theorem relabelled_train opt (net : BaseNeuralNet R) ks r p qs X T c : crate_optimiser opt -> nn_layers net = map to_layer ks -> ks <> [] -> Forall smooth_kind ks ->
  proper_criterion net ks r -> length (nn_weights net) = total_params ks -> mwf X -> (0 < nrows X)%nat -> widths ks (mcols X) = Some c ->
  mwf T -> nrows T = nrows X -> mcols T = c -> Permutation p (seq 0 (mcols X)) -> orders_fit ks qs ->
  net_train opt (set_weights net (arrange (weight_order ks p qs) (nn_weights net))) (map_rows (mcols X) (arrange p) X) (map_rows c (arrange (output_order ks p qs)) T) =
    (let! m := net_train opt net X T in RRet (set_weights m (arrange (weight_order ks p qs) (nn_weights m)))).
Proof.
  intros HO HL Ne Sm HC Lw W Hn HW WT RT CT Hp Hf. unfold net_train. cbn [nn_weights set_weights].
  change (net_compute_grad (set_weights net ?v)) with (net_compute_grad net).
  pose proof (train_arr net ks r p qs (mcols X) c HL Hp Hf HW HC Sm Ne opt (nn_weights net) X T HO Lw W eq_refl Hn (conj WT (conj RT CT))) as E.
  unfold arr_rows in E. rewrite E. rewrite !rnd_bind_assoc. reflexivity.
Qed.

(** ** Units that start alike *)
Lemma fixed_outcome {A} (f : A -> A) (t : Rnd A) : t = (let! v := t in RRet (f v)) -> forall v, outcome t (Some v) -> f v = v.
Proof.
  intros E v HO. remember (Some v) as o eqn:Eo. revert E v Eo. induction HO; intros E v Eo; cbn [rnd_bind] in E; try discriminate.
  - injection Eo as ->. injection E as E. congruence.
  - apply IHHO; auto. injection E as E. exact (f_equal (fun h => h i) E).
Qed.
Lemma arrange_id n (v : list R) : length v = n -> arrange (seq 0 n) v = v.
Proof. intros L. apply (nth_ext _ _ 0 0); [unfold arrange; now rewrite map_length, seq_length|]. unfold arrange at 1. rewrite map_length, seq_length. intros k Hk. rewrite arr_nthR by (rewrite seq_length; auto). now rewrite seq_nth. Qed.
Lemma map_rows_id n (X : matrix R) : mwf X -> mcols X = n -> map_rows n (arrange (seq 0 n)) X = X.
Proof.
  intros W C. destruct X as [rows m]. cbn in C. subst m. unfold map_rows. cbn [mrows]. f_equal. rewrite <- map_id. apply map_ext_in. intros x Hx. apply arrange_id.
  unfold mwf in W. rewrite Forall_forall in W. now apply W.
Qed.
Theorem alike_stay_alike opt (net m : BaseNeuralNet R) ks r qs X T c : crate_optimiser opt -> nn_layers net = map to_layer ks -> ks <> [] -> Forall smooth_kind ks ->
  proper_criterion net ks r -> length (nn_weights net) = total_params ks -> mwf X -> (0 < nrows X)%nat -> widths ks (mcols X) = Some c ->
  mwf T -> nrows T = nrows X -> mcols T = c -> orders_fit ks qs -> output_order ks (seq 0 (mcols X)) qs = seq 0 c ->
  arrange (weight_order ks (seq 0 (mcols X)) qs) (nn_weights net) = nn_weights net ->
  outcome (net_train opt net X T) (Some m) -> arrange (weight_order ks (seq 0 (mcols X)) qs) (nn_weights m) = nn_weights m.
Proof.
  intros HO HL Ne Sm HC Lw W Hn HW WT RT CT Hf HOo HS Hm.
  pose proof (relabelled_train opt net ks r (seq 0 (mcols X)) qs X T c HO HL Ne Sm HC Lw W Hn HW WT RT CT (Permutation_refl _) Hf) as E.
  rewrite HS, HOo, map_rows_id, map_rows_id in E by auto. replace (set_weights net (nn_weights net)) with net in E by (destruct net; reflexivity).
  pose proof (fixed_outcome _ _ E m Hm) as K. rewrite <- K at 2. reflexivity.
Qed.
Theorem constant_start opt (net m : BaseNeuralNet R) ks r qs X T c x : crate_optimiser opt -> nn_layers net = map to_layer ks -> ks <> [] -> Forall smooth_kind ks ->
  proper_criterion net ks r -> nn_weights net = repeat x (total_params ks) -> mwf X -> (0 < nrows X)%nat -> widths ks (mcols X) = Some c ->
  mwf T -> nrows T = nrows X -> mcols T = c -> orders_fit ks qs -> output_order ks (seq 0 (mcols X)) qs = seq 0 c ->
  outcome (net_train opt net X T) (Some m) -> arrange (weight_order ks (seq 0 (mcols X)) qs) (nn_weights m) = nn_weights m.
Proof.
  intros HO HL Ne Sm HC Ew W Hn HW WT RT CT Hf HOo Hm. apply (alike_stay_alike opt net m ks r qs X T c); auto; [now rewrite Ew, repeat_length|].
  destruct (weight_order_perm ks (seq 0 (mcols X)) qs _ _ (Permutation_refl _) Hf HW) as (P & _). rewrite Ew.
  apply (nth_ext _ _ 0 0); [rewrite (arr_len _ _ P), repeat_length; reflexivity|]. rewrite (arr_len _ _ P). intros k Hk. pose proof (Permutation_length P) as Lp. rewrite seq_length in Lp.
  rewrite arr_nthR by lia. assert (nth k (weight_order ks (seq 0 (mcols X)) qs) 0 < total_params ks)%nat by (apply (arr_in _ _ P), nth_In; lia).
  rewrite !(nth_indep (repeat x _) 0 x) by (rewrite repeat_length; auto). now rewrite !nth_repeat.
Qed.

(** ** A concrete network: two inputs, two hidden units, one output *)
Definition ks221 : list (LayerKind R) := mlp_kinds [2; 2; 1]%nat Sigmoid.
Definition net221 (w : list R) (r : Regularization R) : BaseNeuralNet R := {| nn_layers := map to_layer ks221; nn_weights := w; nn_criterion := BCECriterion r |}.
Definition w221 : list R := [1; 2; 3; 4; 5; 6; 7; 8; 9].
(** Both hidden units have bias 1, weights 2 and 3, and weight 5 to the output. *)
Definition twin221 : list R := [1; 1; 2; 2; 3; 3; 4; 5; 5].
Lemma ks221_ok : ks221 <> [] /\ Forall smooth_kind ks221 /\ total_params ks221 = 9%nat /\ widths ks221 2 = Some 1%nat /\ orders_fit ks221 [[1; 0]]%nat /\ Permutation [1; 0]%nat (seq 0 2) /\
  forall w r, proper_criterion (net221 w r) ks221 r.
Proof.
  split; [discriminate|]. split; [repeat constructor; apply sigmoid_smooth|]. split; [reflexivity|]. split; [reflexivity|]. split; [split; [apply perm_swap|split; [apply Permutation_refl|exact I]]|]. split; [apply perm_swap|].
  intros w r. right. split; [reflexivity|]. exists [KLinear 2 2 true; KActiv Sigmoid; KLinear 2 1 true]. reflexivity.
Qed.
Lemma order221 : arrange (weight_order ks221 [1; 0]%nat [[1; 0]]%nat) w221 = [2; 1; 6; 5; 4; 3; 7; 9; 8] /\ output_order ks221 [1; 0]%nat [[1; 0]]%nat = [0]%nat.
Proof. split; reflexivity. Qed.
Lemma twins221 : output_order ks221 (seq 0 2) [[1; 0]]%nat = seq 0 1 /\ arrange (weight_order ks221 (seq 0 2) [[1; 0]]%nat) twin221 = twin221 /\
  forall v, length v = 9%nat -> (arrange (weight_order ks221 (seq 0 2) [[1; 0]]%nat) v = v <-> nth 0 v 0 = nth 1 v 0 /\ nth 2 v 0 = nth 3 v 0 /\ nth 4 v 0 = nth 5 v 0 /\ nth 7 v 0 = nth 8 v 0).
Proof.
  split; [reflexivity|]. split; [reflexivity|]. intros v L. destruct v as [|a [|b [|c [|d [|e [|f [|g [|h [|i [|]]]]]]]]]]; try discriminate.
  cbn. split; [intros [= ]; repeat split; auto|intros (-> & -> & -> & ->); reflexivity].
Qed.
