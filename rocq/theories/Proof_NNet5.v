(** * Consequences: exact gradients, counterexamples, training *)
From Coq Require Import List Arith Lia Bool Reals Lra Permutation.
From Verif Require Import Base BaseLemmas Num NumFn Linalg LinalgR Spec_Calc CalcR MatR Model_Toolkit Model_Rand Model_Optim Model_Cost
  Model_Regression Model_NNet Spec_Cost Spec_NNet Proof_KMeans Proof_Toolkit Proof_Cost Proof_Rand Proof_Optim
  Proof_NNet Proof_NNet2 Proof_NNet3 Proof_NNet4.
Import ListNotations.

(** ** Optimisers keep the number of parameters *)
Section Keeps.
  Context {F : Type} {N : Num F}.
  Lemma gd_loop_len alpha (cg : list F -> res (F * list F)) n : forall w c v, gd_loop alpha cg n w c = Ok v -> length v = length w.
  Proof.
    induction n as [|n IH]; intros w c v H; cbn [gd_loop] in H.
    - apply Ok_inj in H. congruence.
    - apply rbind_Ok_inv in H. destruct H as ((c1 & g) & _ & H).
      destruct (nltb (nabs (nsub c c1)) learning_eps); [apply Ok_inj in H; congruence|].
      apply rbind_Ok_inv in H. destruct H as (w1 & H1 & H). apply rvsub_Ok in H1. destruct H1 as (E & ->).
      rewrite (IH _ _ _ H). apply vsub_len. exact E.
  Qed.
  Lemma gd_keeps self : keeps_length (gd_as_optimizer self).
  Proof. intros cg start X T v H. apply outcome_res in H. eapply gd_loop_len; eauto. Qed.
  Lemma sgd_keeps self : keeps_length (sgd_optimize self).
  Proof. intros cg start X T v H. apply (optimize_epochs cg _ _ X T (sgd_step_next self)) in H. destruct H as (_ & _ & _ & _ & L). exact L. Qed.
  Lemma ada_keeps self : keeps_length (ada_optimize self).
  Proof. intros cg start X T v H. apply (optimize_epochs cg _ _ X T (ada_step_next self)) in H. destruct H as (_ & _ & _ & _ & L). exact L. Qed.
  Lemma rms_keeps self : keeps_length (rms_optimize self).
  Proof. intros cg start X T v H. apply (optimize_epochs cg _ _ X T (rms_step_next self)) in H. destruct H as (_ & _ & _ & _ & L). exact L. Qed.

  (** Training cannot succeed when [compute_grad] panics on every row it is given. *)
  Lemma stoch_no_result (cg : list F -> matrix F -> matrix F -> res (F * list F)) step (X T : matrix F) iters start v :
    0 < iters -> 0 < nrows X ->
    (forall i xi ti, one_row X i = Ok xi -> one_row T i = Ok ti -> cg start xi ti = Panic) ->
    ~ outcome (stoch_optimize cg step X T iters start) (Some v).
  Proof.
    intros Hi Hn Hcg H. unfold stoch_optimize in H. destruct iters as [|iters]; [lia|]. cbn [stoch_loop] in H.
    apply outcome_bind in H. destruct H as [(p & Hp & H)|(E & _)]; [|discriminate].
    destruct (in_place_perm _ _ Hp) as (t & Et & Pt). injection Et as <-.
    destruct p as [|i p].
    { apply Permutation_length in Pt. rewrite seq_length in Pt. cbn in Pt. lia. }
    apply outcome_bind in H. destruct H as [(r & Hr & H)|(E & _)]; [|discriminate].
    apply outcome_res in Hr. cbn [stoch_pass] in Hr.
    apply rbind_Ok_inv in Hr. destruct Hr as (xi & Hx & Hr). apply rbind_Ok_inv in Hr. destruct Hr as (ti & Ht & Hr).
    cbn [fst] in Hr. rewrite (Hcg i xi ti Hx Ht) in Hr. discriminate.
  Qed.
  Lemma gd_no_result (self : GradientDesc F) cg start (X T : matrix F) : 0 < gd_iters self -> (forall w, cg w X T = Panic) ->
    gd_as_optimizer self cg start X T = RPanic.
  Proof.
    intros Hi H. unfold gd_as_optimizer, gd_optimize. destruct (gd_iters self); [lia|]. cbn [gd_loop]. rewrite H. reflexivity.
  Qed.
End Keeps.

Lemma train_none {F} {N : Num F} {NF : NumFn F} opt (net : BaseNeuralNet F) X T :
  (forall v, ~ outcome (opt (net_compute_grad net) (nn_weights net) X T) (Some v)) ->
  forall net', ~ outcome (net_train opt net X T) (Some net').
Proof. intros H net' O. apply outcome_train in O. destruct O as (w & O & _). exact (H w O). Qed.

Local Open Scope R_scope.

(** ** The crate's activation functions are smooth *)
Lemma sigmoid_smooth : smooth_activ Sigmoid.
Proof. intros x. destruct sigmoid_ok as (D & E & _). rewrite E. apply D. Qed.
Lemma tanh_smooth : smooth_activ Tanh.
Proof. intros x. destruct tanh_ok as (D & E & _). rewrite E. apply D. Qed.
Lemma exp_smooth : smooth_activ Exp.
Proof. intros x. destruct exp_ok as (D & E & _). rewrite E. apply D. Qed.
Lemma linear_smooth : smooth_activ LinearAct.
Proof. intros x. destruct linear_ok as (D & E & _). rewrite E. apply D. Qed.

(** ** Outputs of a network ending in a sigmoid *)
Lemma net_fwd_app (ks1 ks2 : list (LayerKind R)) : forall w idx X,
  net_fwd (ks1 ++ ks2) w idx X = net_fwd ks2 w (idx + total_params ks1) (net_fwd ks1 w idx X).
Proof.
  induction ks1 as [|k ks1 IH]; intros w idx X.
  - cbn. rewrite Nat.add_0_r. reflexivity.
  - cbn [app net_fwd]. rewrite IH, total_cons, Nat.add_assoc. reflexivity.
Qed.
Lemma sigmoid_last (ks : list (LayerKind R)) w idx X i j :
  let Y := net_fwd (ks ++ [KActiv Sigmoid]) w idx X in (i < nrows Y)%nat -> (j < mcols Y)%nat -> mwf (net_fwd ks w idx X) -> 0 < entry Y i j < 1.
Proof.
  cbn zeta. rewrite net_fwd_app. cbn [net_fwd kforward]. intros Hi Hj W.
  rewrite nrows_mmap in Hi. cbn [mcols mmap] in Hj. rewrite Proof_Cost.mmap_entry by auto. apply sigmoid_range.
Qed.
Lemma widths_app {F} (ks1 ks2 : list (LayerKind F)) : forall w, widths (ks1 ++ ks2) w = match widths ks1 w with Some c => widths ks2 c | None => None end.
Proof. induction ks1 as [|k ks1 IH]; intros w; [reflexivity|]. cbn [app widths]. destruct (out_width k w); [apply IH|reflexivity]. Qed.
Lemma total_app {F} (ks1 ks2 : list (LayerKind F)) : total_params (ks1 ++ ks2) = (total_params ks1 + total_params ks2)%nat.
Proof. unfold total_params. rewrite map_app, list_sum_app. reflexivity. Qed.

(** ** Gradient of MSE and BCE networks *)
Lemma criterion_separable net ks w X T c r :
  nn_layers net = map to_layer ks -> length w = total_params ks -> mwf X -> widths ks (mcols X) = Some c ->
  mwf T -> nrows T = nrows X -> mcols T = c ->
  nn_criterion net = MSECriterion r \/ (nn_criterion net = BCECriterion r /\ outputs_between net w X) ->
  separable (nn_criterion net) (net_fwd ks w 0 X) T (nrows X) c.
Proof.
  intros HL Lw WX HW WT RT CT HC.
  destruct (predict_fits (set_weights net w) ks X c) as (E & S1 & S2 & S3); auto.
  cbn [nn_weights set_weights] in *.
  assert (SY : shape (net_fwd ks w 0 X) (nrows X) c) by (split; auto).
  assert (ST : shape T (nrows X) c) by (split; auto).
  destruct HC as [->|[-> HO]].
  - apply mse_separable; auto.
  - apply bce_separable; auto. intros i j Hi Hj. apply (HO _ E); lia.
Qed.

Theorem gradient_times_rows (net : BaseNeuralNet R) ks w X T c r :
  nn_layers net = map to_layer ks -> ks <> [] -> Forall smooth_kind ks -> length w = total_params ks ->
  mwf X -> widths ks (mcols X) = Some c -> (0 < nrows X)%nat ->
  mwf T -> nrows T = nrows X -> mcols T = c ->
  nn_criterion net = MSECriterion r \/ (nn_criterion net = BCECriterion r /\ outputs_between net w X) ->
  exists dc g, data_cost net X T w = Ok dc /\
    net_compute_grad net w X T = Ok (dc + reg_cost r (as_column w), g) /\
    length g = length w /\
    forall q, (q < length w)%nat -> exists d, has_partial_vec (data_cost net X T) w q d /\
      nth q g 0 = INR (nrows X) * d + entry (reg_grad r (as_column w)) q 0.
Proof.
  intros HL Hne Sm Lw WX HW Hn WT RT CT HC.
  assert (Er : cr_regularization (nn_criterion net) = r) by (destruct HC as [->|[-> _]]; reflexivity).
  rewrite <- Er. apply (compute_grad_ok net ks w X T c); auto. eapply criterion_separable; eauto.
Qed.

Theorem one_row_gradient (net : BaseNeuralNet R) ks w X T c :
  nn_layers net = map to_layer ks -> ks <> [] -> Forall smooth_kind ks -> length w = total_params ks ->
  mwf X -> widths ks (mcols X) = Some c -> nrows X = 1%nat ->
  mwf T -> nrows T = 1%nat -> mcols T = c ->
  nn_criterion net = MSECriterion RegNone \/ (nn_criterion net = BCECriterion RegNone /\ outputs_between net w X) ->
  exists cost g, net_compute_grad net w X T = Ok (cost, g) /\ data_cost net X T w = Ok cost /\
    length g = length w /\ forall q, (q < length w)%nat -> has_partial_vec (data_cost net X T) w q (nth q g 0).
Proof.
  intros HL Hne Sm Lw WX HW Hn WT RT CT HC.
  destruct (gradient_times_rows net ks w X T c RegNone) as (dc & g & E1 & E2 & Lg & HG); auto; try lia.
  exists dc, g. cbn [reg_cost] in E2. change (@nzero R NumR) with 0 in E2. rewrite Rplus_0_r in E2.
  split; [exact E2|]. split; [exact E1|]. split; [exact Lg|].
  intros q Hq. destruct (HG q Hq) as (d & Hd & ->). rewrite Hn, reg_none_entry. cbn [INR].
  replace (1 * d + 0) with d by ring. exact Hd.
Qed.

Lemma has_partial_vec_unique f v i d d' : has_partial_vec f v i d -> has_partial_vec f v i d' -> d = d'.
Proof.
  intros (c & E & D) (c' & E' & D'). eapply uniqueness_limite; [exact D|].
  apply (dlim_ext c'); [|exact D']. intros x. apply Ok_inj. rewrite <- E, <- E'. reflexivity.
Qed.

Theorem batch_gradient_wrong (net : BaseNeuralNet R) ks w X T c q d :
  nn_layers net = map to_layer ks -> ks <> [] -> Forall smooth_kind ks -> length w = total_params ks ->
  mwf X -> widths ks (mcols X) = Some c -> (2 <= nrows X)%nat ->
  mwf T -> nrows T = nrows X -> mcols T = c ->
  nn_criterion net = MSECriterion RegNone \/ (nn_criterion net = BCECriterion RegNone /\ outputs_between net w X) ->
  (q < length w)%nat -> has_partial_vec (data_cost net X T) w q d -> d <> 0 ->
  exists cost g, net_compute_grad net w X T = Ok (cost, g) /\ data_cost net X T w = Ok cost /\
    nth q g 0 = INR (nrows X) * d /\ nth q g 0 <> d.
Proof.
  intros HL Hne Sm Lw WX HW Hn WT RT CT HC Hq Hd Hnz.
  destruct (gradient_times_rows net ks w X T c RegNone) as (dc & g & E1 & E2 & Lg & HG); auto; try lia.
  exists dc, g. cbn [reg_cost] in E2. change (@nzero R NumR) with 0 in E2. rewrite Rplus_0_r in E2.
  split; [exact E2|]. split; [exact E1|].
  destruct (HG q Hq) as (d' & Hd' & Eg). rewrite (has_partial_vec_unique _ _ _ _ _ Hd' Hd), reg_none_entry, Rplus_0_r in Eg.
  split; [exact Eg|]. rewrite Eg. apply le_INR in Hn. cbn [INR] in Hn. intros H.
  apply Hnz. apply (Rmult_eq_reg_l (INR (nrows X) - 1)); [lra|lra].
Qed.

(** ** Networks made by [mlp] and [default] *)
Lemma mlp_kinds_layers {F} {N : Num F} {NF : NumFn F} sizes (a : Activ F) : mlp_layers sizes a = map to_layer (mlp_kinds sizes a).
Proof. induction sizes as [|x [|y s] IH]; try reflexivity. cbn [mlp_layers mlp_kinds map] in *. rewrite IH. reflexivity. Qed.
Lemma mlp_widths {F} (a : Activ F) s : forall x, widths (mlp_kinds (x :: s) a) x = Some (last (x :: s) 0%nat).
Proof.
  induction s as [|y s IH]; intros x; [reflexivity|].
  change (mlp_kinds (x :: y :: s) a) with (KLinear x y true :: KActiv a :: mlp_kinds (y :: s) a).
  cbn [widths out_width]. rewrite Nat.eqb_refl. rewrite IH. reflexivity.
Qed.
Lemma add_layers_criterion {F} {N : Num F} {NF : NumFn F} rng ls : forall net : BaseNeuralNet F, nn_criterion (net_add_layers rng net ls) = nn_criterion net.
Proof. induction ls as [|l ls IH]; intros net; [reflexivity|]. cbn [net_add_layers fold_left]. exact (IH (net_add rng net l)). Qed.

Theorem mlp_ok {F} {N : Num F} {NF : NumFn F} rng x s (c : Criterion F) a : exists net, net_mlp rng (x :: s) c a = Ok net /\
  nn_layers net = map to_layer (mlp_kinds (x :: s) a) /\ nn_criterion net = c /\ length (nn_weights net) = total_params (mlp_kinds (x :: s) a).
Proof.
  destruct (net_mlp rng (x :: s) c a) as [net| |] eqn:E; try discriminate. exists net. split; [reflexivity|].
  assert (L := mlp_len _ _ _ _ _ E). unfold net_mlp in E. cbn [length Nat.leb rassert] in E. apply Ok_inj in E.
  assert (HL : nn_layers net = map to_layer (mlp_kinds (x :: s) a)).
  { rewrite <- E, add_layers_layers. apply mlp_kinds_layers. }
  split; [exact HL|]. split; [rewrite <- E; apply add_layers_criterion|].
  rewrite total_num, <- HL. exact L.
Qed.
Lemma mlp_kinds_last {F} (a : Activ F) s : forall x y, exists ks, mlp_kinds (x :: y :: s) a = ks ++ [KActiv a].
Proof.
  induction s as [|z s IH]; intros x y.
  - exists [KLinear x y true]. reflexivity.
  - destruct (IH y z) as [ks E]. exists (KLinear x y true :: KActiv a :: ks).
    change (mlp_kinds (x :: y :: z :: s) a) with (KLinear x y true :: KActiv a :: mlp_kinds (y :: z :: s) a). rewrite E. reflexivity.
Qed.
Lemma mlp_smooth (a : Activ R) s : smooth_activ a -> Forall smooth_kind (mlp_kinds s a).
Proof. intros H. induction s as [|x [|y s] IH]; try constructor; [exact I|]. constructor; [exact H|exact IH]. Qed.

Theorem default_one_row rng x y s (net : BaseNeuralNet R) w X T : net_default rng (x :: y :: s) = Ok net ->
  length w = length (nn_weights net) ->
  mwf X -> nrows X = 1%nat -> mcols X = x -> mwf T -> nrows T = 1%nat -> mcols T = last (y :: s) 0%nat ->
  exists cost g, net_compute_grad net w X T = Ok (cost, g) /\ data_cost net X T w = Ok cost /\
    length g = length w /\ forall q, (q < length w)%nat -> has_partial_vec (data_cost net X T) w q (nth q g 0).
Proof.
  intros E Lw WX RX CX WT RT CT.
  assert (Hlen := mlp_len _ _ _ _ _ E). unfold net_default, net_mlp in E. cbn [length Nat.leb rassert] in E. apply Ok_inj in E.
  assert (HL : nn_layers net = map to_layer (mlp_kinds (x :: y :: s) Sigmoid)).
  { rewrite <- E, add_layers_layers. cbn [net_new nn_layers app]. apply mlp_kinds_layers. }
  assert (HC : nn_criterion net = BCECriterion RegNone).
  { rewrite <- E. apply add_layers_criterion. }
  assert (Lt : length w = total_params (mlp_kinds (F := R) (x :: y :: s) Sigmoid)).
  { rewrite Lw, Hlen, HL, total_num. reflexivity. }
  pose proof (mlp_widths (F := R) Sigmoid (y :: s) x) as HW.
  assert (EL : last (x :: y :: s) 0%nat = last (y :: s) 0%nat) by reflexivity. rewrite EL in HW.
  eapply one_row_gradient; try eassumption.
  - destruct (mlp_kinds_last (F := R) Sigmoid s x y) as [ks ->]. destruct ks; discriminate.
  - apply mlp_smooth. apply sigmoid_smooth.
  - rewrite CX. exact HW.
  - auto.
  - right. split; [exact HC|]. intros Y EY i j Hi Hj.
    destruct (mlp_kinds_last (F := R) Sigmoid s x y) as [ks Ek].
    destruct (predict_fits (set_weights net w) _ X _ HL Lt WX ltac:(rewrite CX; exact HW)) as (EP & _ & _ & _).
    rewrite EP in EY. apply Ok_inj in EY. cbn [nn_weights set_weights] in EY. subst Y.
    rewrite Ek in *. rewrite widths_app in HW. destruct (widths ks x) as [c1|] eqn:E1; [|discriminate].
    rewrite total_app in Lt.
    destruct (forward_rest_ok ks w 0 X c1 WX ltac:(lia) ltac:(rewrite CX; exact E1)) as (_ & W1 & _ & _).
    apply (sigmoid_last ks w 0 X i j); auto.
Qed.

(** ** When [compute_grad] panics *)
Lemma cost_grad_mismatch r (cr : Criterion R) (Y T : matrix R) : cr = MSECriterion r \/ cr = BCECriterion r ->
  same_shape Y T = false -> cr_cost_grad cr Y T = Panic.
Proof. intros [->| ->] H; cbn; unfold mse_grad, ce_grad; rewrite H; reflexivity. Qed.

Theorem compute_grad_panics (net : BaseNeuralNet R) ks w X T r :
  nn_layers net = map to_layer ks -> length w = total_params ks -> mwf X ->
  nn_criterion net = MSECriterion r \/ nn_criterion net = BCECriterion r ->
  ks = [] \/ widths ks (mcols X) = None \/ (exists c, widths ks (mcols X) = Some c /\ (nrows T <> nrows X \/ mcols T <> c)) ->
  net_compute_grad net w X T = Panic.
Proof.
  intros HL Lw WX HC H. unfold net_compute_grad. rewrite HL.
  destruct H as [->|[H|(c & HW & H)]].
  - reflexivity.
  - rewrite forward_pass_misfit by (auto; lia). reflexivity.
  - rewrite (forward_pass_ok ks w 0 X c) by (auto; lia). cbn [rbind].
    destruct ks as [|k ks]; [reflexivity|]. destruct (trace_last ks k w 0 X) as (l & i & p & rest & ER). rewrite ER.
    destruct (forward_rest_ok (k :: ks) w 0 X c WX ltac:(lia) HW) as (_ & _ & R1 & C1).
    rewrite (cost_grad_mismatch r) by (auto; destruct (same_shape (net_fwd (k :: ks) w 0 X) T) eqn:E; auto;
      apply same_shape_true in E; destruct E; exfalso; destruct H; congruence).
    reflexivity.
Qed.

Lemma compute_grad_len (net : BaseNeuralNet R) ks w X T : nn_layers net = map to_layer ks -> (length w < total_params ks)%nat ->
  forall a, net_compute_grad net w X T <> Ok a.
Proof.
  intros HL Lw a H. unfold net_compute_grad in H. rewrite HL in H.
  apply rbind_Ok_inv in H. destruct H as ((ts & i) & H & _).
  assert (G : forall ks idx X r, (length w < idx + total_params ks)%nat -> (idx <= length w)%nat -> forward_pass w (map to_layer ks) idx X <> Ok r).
  { clear. induction ks as [|k ks IH]; intros idx X r H Hi E; [change (total_params []) with 0%nat in H; lia|].
    cbn [map forward_pass] in E. rewrite total_cons in H.
    apply rbind_Ok_inv in E. destruct E as (s & Es & E). apply rbind_Ok_inv in E. destruct E as (o & _ & E).
    apply rbind_Ok_inv in E. destruct E as ((ts' & i') & E & _). rewrite <- kparams_num in E.
    unfold wslice in Es. destruct (Nat.leb_spec (idx + fst (nl_param_shape (to_layer k)) * snd (nl_param_shape (to_layer k))) (length w)) as [Q|Q]; [|discriminate].
    apply (IH (idx + kparams k)%nat o (ts', i')); [lia| |exact E]. rewrite kparams_num. exact Q. }
  exact (G ks 0%nat X (ts, i) ltac:(lia) ltac:(lia) H).
Qed.

(** ** Training panics where prediction reports an error *)
Section Panics.
  Variable net : BaseNeuralNet R.
  Variable ks : list (LayerKind R).
  Variables X T : matrix R.
  Variable r : Regularization R.
  Hypothesis HL : nn_layers net = map to_layer ks.
  Hypothesis Hlen : length (nn_weights net) = total_params ks.
  Hypothesis WX : mwf X.
  Hypothesis HC : nn_criterion net = MSECriterion r \/ nn_criterion net = BCECriterion r.

  Lemma gd_train_panics self : (0 < gd_iters self)%nat -> cannot_train ks X T \/ nrows T <> nrows X ->
    net_train (gd_as_optimizer self) net X T = RPanic.
  Proof.
    intros Hi H. unfold net_train, gd_as_optimizer, gd_optimize. destruct (gd_iters self); [lia|]. cbn [gd_loop].
    rewrite (compute_grad_panics net ks (nn_weights net) X T r); auto.
    destruct H as [[H|[H|(c & HW & H)]]|H]; auto; [right; right; eauto|].
    destruct (widths ks (mcols X)) as [c|] eqn:E; auto. right. right. exists c. auto.
  Qed.

  Lemma row_panics : cannot_train ks X T -> forall i xi ti, one_row X i = Ok xi -> one_row T i = Ok ti ->
    net_compute_grad net (nn_weights net) xi ti = Panic.
  Proof.
    intros H i xi ti Hx Ht. apply one_row_Ok in Hx. destruct Hx as (x & Hx & ->). apply one_row_Ok in Ht. destruct Ht as (t & Ht & ->).
    apply (compute_grad_panics net ks _ _ _ r); auto.
    - constructor; [|constructor]. cbn. unfold mwf in WX. rewrite Forall_forall in WX. apply WX. eapply nth_error_In; eauto.
    - cbn [mcols]. destruct H as [H|[H|(c & HW & H)]]; auto. right. right. exists c. auto.
  Qed.
  Lemma sgd_train_panics : cannot_train ks X T -> (0 < nrows X)%nat ->
    (forall self, (0 < sgd_iters self)%nat -> forall net', ~ outcome (net_train (sgd_optimize self) net X T) (Some net')) /\
    (forall self, (0 < ada_iters self)%nat -> forall net', ~ outcome (net_train (ada_optimize self) net X T) (Some net')) /\
    (forall self, (0 < rms_iters self)%nat -> forall net', ~ outcome (net_train (rms_optimize self) net X T) (Some net')).
  Proof.
    intros H Hn. split; [|split]; intros self Hi; apply train_none; intros v; apply stoch_no_result; auto; apply row_panics; exact H.
  Qed.
End Panics.
