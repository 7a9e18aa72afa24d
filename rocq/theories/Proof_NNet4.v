(** * The gradient computed by [compute_grad]; training *)
From Coq Require Import List Arith Lia Bool Reals Lra.
From Verif Require Import Base BaseLemmas Num NumFn Linalg LinalgR Spec_Calc CalcR MatR Model_Toolkit Model_Optim Model_Cost
  Model_Regression Model_NNet Spec_Cost Spec_NNet Proof_KMeans Proof_Toolkit Proof_Cost Proof_NNet Proof_NNet2 Proof_NNet3.
Import ListNotations.
Local Open Scope R_scope.

(** A cost that is a mean of entrywise costs, with the gradient of the sum. *)
Definition separable (cr : Criterion R) (Y T : matrix R) (n c : nat) : Prop :=
  exists f f' : R -> R -> R,
  (forall Z, shape Z n c -> cr_cost cr Z T = Ok (sum_entries n c (fun i j => f (entry Z i j) (entry T i j)) / INR n)) /\
  (exists G, cr_cost_grad cr Y T = Ok G /\ shape G n c /\
     forall i j, (i < n)%nat -> (j < c)%nat -> entry G i j = f' (entry Y i j) (entry T i j) /\
       derivable_pt_lim (fun y => f y (entry T i j)) (entry Y i j) (f' (entry Y i j) (entry T i j))).

Lemma same_shape_of (Z T : matrix R) n c : shape Z n c -> nrows T = n -> mcols T = c -> same_shape Z T = true.
Proof. intros (_ & R1 & C1) R2 C2. apply same_shape_true. lia. Qed.

Lemma mse_separable r Y T n c : shape Y n c -> shape T n c -> separable (MSECriterion r) Y T n c.
Proof.
  intros SY ST. destruct ST as (WT & RT & CT).
  exists (fun y t => (y - t) ^ 2 / 2), (fun y t => y - t). split.
  - intros Z SZ. cbn [MSECriterion cr_cost]. destruct (SZ) as (WZ & RZ & CZ).
    rewrite mse_cost_entries by (auto; eapply same_shape_of; eauto). f_equal. rewrite RZ, CZ.
    unfold Rdiv at 1. rewrite Rinv_mult. unfold sum_entries.
    rewrite (sumR_ext n (fun i => sumR c (fun j => (entry Z i j - entry T i j) ^ 2 / 2)) (fun i => sumR c (fun j => (entry Z i j - entry T i j) ^ 2) * / 2)).
    2:{ intros i _. apply sumR_scal_r. }
    rewrite sumR_scal_r. unfold Rdiv. ring.
  - cbn [MSECriterion cr_cost_grad]. unfold mse_grad. rewrite (same_shape_of Y T n c) by auto. cbn [rassert].
    destruct SY as (WY & RY & CY).
    exists (mzip Rminus Y T). split; [reflexivity|]. split.
    + split; [apply mzip_wf; auto; lia|]. split; [rewrite mzip_nrows; lia|exact CY].
    + intros i j Hi Hj. split; [apply mzip_entry; auto; lia|].
      replace (entry Y i j - entry T i j) with (/ 2 * ((1 - 0) * (entry Y i j - entry T i j) + (entry Y i j - entry T i j) * (1 - 0))) by field.
      apply (dlim_ext (fun y => / 2 * ((y - entry T i j) * (y - entry T i j)))); [intros y; field|].
      apply derivable_pt_lim_scal.
      apply (derivable_pt_lim_mult (fun x => x - entry T i j) (fun x => x - entry T i j));
        apply (derivable_pt_lim_minus id (fct_cte (entry T i j))); [apply derivable_pt_lim_id|apply derivable_pt_lim_const|apply derivable_pt_lim_id|apply derivable_pt_lim_const].
Qed.

Lemma bce_separable r Y T n c : shape Y n c -> shape T n c -> (forall i j, (i < n)%nat -> (j < c)%nat -> 0 < entry Y i j < 1) ->
  separable (BCECriterion r) Y T n c.
Proof.
  intros SY ST H. destruct ST as (WT & RT & CT).
  exists (fun y t => - ce_entry y t), (fun y t => (y - t) / (y * (1 - y))). split.
  - intros Z SZ. cbn [BCECriterion cr_cost]. destruct (SZ) as (WZ & RZ & CZ).
    rewrite ce_cost_entries by (auto; eapply same_shape_of; eauto). f_equal. unfold cross_entropy. rewrite RZ, CZ. f_equal.
    unfold sum_entries.
    rewrite (sumR_ext n (fun i => sumR c (fun j => - ce_entry (entry Z i j) (entry T i j))) (fun i => (-1) * sumR c (fun j => ce_entry (entry Z i j) (entry T i j)))).
    2:{ intros i _. rewrite <- sumR_scal. apply sumR_ext. intros; ring. }
    rewrite sumR_scal. unfold ce_entry. ring.
  - cbn [BCECriterion cr_cost_grad].
    assert (SS : same_shape Y T = true) by (eapply same_shape_of; eauto). destruct SY as (WY & RY & CY).
    assert (E : exists G, ce_grad Y T = Ok G /\ shape G n c).
    { unfold ce_grad. rewrite SS. cbn [rassert]. eexists. split; [reflexivity|].
      assert (W1 : mwf (mzip Rminus Y T)) by (apply mzip_wf; auto; lia).
      assert (W2 : mwf (mzip Rmult Y (mmap (fun x => - x + 1) Y))) by (apply mzip_wf; auto using mmap_wf).
      split; [apply mzip_wf; auto|]. split; [|exact CY].
      rewrite !mzip_nrows, mmap_nrows. lia. }
    destruct E as (G & EG & SG). exists G. split; [exact EG|]. split; [exact SG|].
    intros i j Hi Hj. specialize (H i j Hi Hj).
    destruct (ce_grad_entry Y T i j) as (G' & EG' & _ & _ & Ev); auto; try lia.
    assert (G' = G) by (apply Ok_inj; congruence). subst G'. split; [exact Ev|].
    replace ((entry Y i j - entry T i j) / (entry Y i j * (1 - entry Y i j))) with (- (entry T i j / entry Y i j - (1 - entry T i j) / (1 - entry Y i j))) by (field; lra).
    apply (derivable_pt_lim_opp (fun y => ce_entry y (entry T i j))). apply ce_entry_deriv. exact H.
Qed.

Lemma reg_grad_shape r (w : list R) : shape (reg_grad r (as_column w)) (length w) 1.
Proof.
  assert (S0 : shape (as_column w) (length w) 1).
  { split; [|split; [apply map_length|reflexivity]]. unfold mwf, as_column. cbn. apply Forall_map. apply Forall_forall. reflexivity. }
  assert (SM : forall f, shape (mmap f (as_column w)) (length w) 1).
  { intros f. destruct S0 as (W0 & R0 & C0). split; [apply mwf_mmap; exact W0|]. rewrite nrows_mmap. auto. }
  destruct r as [x|x|x y|]; cbn [reg_grad]; try apply SM.
  unfold l1_reg_grad, l2_reg_grad.
  match goal with |- shape (mzip _ (mmap ?f _) (mmap ?g _)) _ _ => destruct (SM f) as (W1 & R1 & C1); destruct (SM g) as (W2 & R2 & C2) end.
  split; [apply mzip_wf; auto|]. split; [rewrite mzip_nrows; lia|exact C1].
Qed.
Lemma reg_none_entry (w : list R) q : entry (reg_grad RegNone (as_column w)) q 0 = 0.
Proof.
  unfold entry, reg_grad, mmap, as_column. cbn [mrows]. rewrite map_map. cbn [map].
  destruct (Nat.lt_ge_cases q (length w)) as [H|H].
  - rewrite (nth_map _ _ _ _ 0) by exact H. reflexivity.
  - rewrite (nth_overflow (map _ w)) by (rewrite map_length; exact H). reflexivity.
Qed.

Lemma rmap_written (g : list R) : rmap written (map Some g) = Ok g.
Proof. induction g as [|x g IH]; [reflexivity|]. cbn [map rmap written rbind]. rewrite IH. reflexivity. Qed.

Lemma vset_wcurve (w : list R) q : wcurve (vset w q) (nth q w 0) (length w) (fun k => if (q =? k)%nat then 1 else 0).
Proof.
  split; [intros x; apply vset_length|]. intros k Hk. destruct (Nat.eqb_spec q k) as [->|H].
  - apply (dlim_ext id); [|apply derivable_pt_lim_id]. intros x. symmetry. apply vset_nth_same. exact Hk.
  - apply (dlim_ext (fun _ => nth k w 0)); [|apply derivable_pt_lim_const]. intros x. symmetry. apply vset_nth_other. auto.
Qed.
Lemma const_wcurve (w : list R) : wcurve (fun _ => w) 0 (length w) (fun _ => 0).
Proof. split; [reflexivity|]. intros q _. apply (derivable_pt_lim_const (nth q w 0)). Qed.
Lemma const_curve X x0 : mwf X -> curve (fun _ => X) x0 (nrows X) (mcols X) (fun _ _ => 0).
Proof. intros W. split; [auto|]. intros i j _ _. apply (derivable_pt_lim_const (entry X i j)). Qed.
Lemma inner_zero n c G : inner n c G (fun _ _ => 0) = 0.
Proof. apply sumR_zero. intros. apply sumR_zero. intros. ring. Qed.

Lemma map_Some_inj (g g' : list R) : map Some g = map Some g' -> g = g'.
Proof. revert g'; induction g as [|x g IH]; intros [|y g'] H; cbn in H; try discriminate; [reflexivity|]. injection H as -> H. f_equal. auto. Qed.

Lemma sum_entries_curve (f f' : R -> R -> R) (Y : R -> matrix R) x0 n c dY T G : curve Y x0 n c dY ->
  (forall i j, (i < n)%nat -> (j < c)%nat -> entry G i j = f' (entry (Y x0) i j) (entry T i j) /\
     derivable_pt_lim (fun y => f y (entry T i j)) (entry (Y x0) i j) (f' (entry (Y x0) i j) (entry T i j))) ->
  derivable_pt_lim (fun x => sum_entries n c (fun i j => f (entry (Y x) i j) (entry T i j)) / INR n) x0 (inner n c G dY / INR n).
Proof.
  intros [_ DY] H. unfold Rdiv. apply (dlim_ext (fun x => / INR n * sum_entries n c (fun i j => f (entry (Y x) i j) (entry T i j)))).
  { intros x. apply Rmult_comm. }
  rewrite (Rmult_comm (inner n c G dY)). apply derivable_pt_lim_scal. unfold sum_entries, inner.
  apply (deriv_sumR n (fun i x => sumR c (fun j => f (entry (Y x) i j) (entry T i j)))). intros i Hi.
  apply (deriv_sumR c (fun j x => f (entry (Y x) i j) (entry T i j))). intros j Hj.
  destruct (H i j Hi Hj) as [-> D].
  apply (derivable_pt_lim_comp (fun x => entry (Y x) i j) (fun y => f y (entry T i j))); auto.
Qed.

Theorem compute_grad_ok (net : BaseNeuralNet R) ks w X T c :
  nn_layers net = map to_layer ks -> ks <> [] -> Forall smooth_kind ks -> length w = total_params ks ->
  mwf X -> widths ks (mcols X) = Some c -> (0 < nrows X)%nat -> separable (nn_criterion net) (net_fwd ks w 0 X) T (nrows X) c ->
  exists dc g, data_cost net X T w = Ok dc /\
    net_compute_grad net w X T = Ok (dc + reg_cost (cr_regularization (nn_criterion net)) (as_column w), g) /\
    length g = length w /\
    forall q, (q < length w)%nat -> exists d, has_partial_vec (data_cost net X T) w q d /\
      nth q g 0 = INR (nrows X) * d + entry (reg_grad (cr_regularization (nn_criterion net)) (as_column w)) q 0.
Proof.
  intros HL Hne Sm Lw WX HW Hn (f & f' & Hcost & G & EG & SG & HG).
  assert (Hpred : forall v, length v = length w -> net_predict (set_weights net v) X = Ok (net_fwd ks v 0 X) /\ shape (net_fwd ks v 0 X) (nrows X) c).
  { intros v Lv. destruct (predict_fits (set_weights net v) ks X c) as (E & S1 & S2 & S3); auto; [cbn; lia|].
    split; [exact E|]. split; auto. }
  assert (Hdc : forall v, length v = length w -> data_cost net X T v =
     Ok (sum_entries (nrows X) c (fun i j => f (entry (net_fwd ks v 0 X) i j) (entry T i j)) / INR (nrows X))).
  { intros v Lv. unfold data_cost. destruct (Hpred v Lv) as [-> S1]. cbn [rbind]. apply Hcost. exact S1. }
  destruct (backward_ok ks (fun _ => w) 0 (length w) (fun _ => 0) 0 (fun _ => X) (nrows X) (mcols X) c (fun _ _ => 0) Sm
              (const_wcurve w) ltac:(lia) HW (const_curve X 0 WX)) as (dY & _ & Adj).
  destruct (Adj G (repeat None (length w)) SG (repeat_length _ _)) as (g & GX & EB & Lg & _ & _).
  cbn [Nat.add] in EB.
  assert (Enil : skipn (total_params ks) (repeat (@None R) (length w)) = []) by (apply skipn_all2; rewrite repeat_length; lia).
  rewrite Enil in EB. cbn [firstn app] in EB. rewrite app_nil_r in EB.
  set (r := cr_regularization (nn_criterion net)).
  set (g' := if is_regularized (nn_criterion net) then map2 (fun x y => x + y) g (mdata (reg_grad r (as_column w))) else g).
  pose proof (reg_grad_shape r w) as SR. destruct SR as (WR & RR & CR).
  assert (LR : length (mdata (reg_grad r (as_column w))) = length w) by (rewrite mdata_len by exact WR; rewrite RR, CR; lia).
  eexists. exists g'. split; [exact (Hdc w eq_refl)|]. split; [|split].
  - unfold net_compute_grad. rewrite HL. rewrite (forward_pass_ok ks w 0 X c) by (auto; lia). cbn [rbind Nat.add].
    destruct ks as [|k ks]; [congruence|]. destruct (trace_last ks k w 0 X) as (l & i & p & rest & ER).
    rewrite ER in *. rewrite EG. cbn [rbind]. rewrite EB. cbn [rbind]. rewrite rmap_written. cbn [rbind].
    rewrite Hcost by (apply Hpred; reflexivity). cbn [rbind]. fold r. unfold g'.
    destruct (is_regularized (nn_criterion net)) eqn:Er.
    + rewrite Lg, <- Lw, LR, Nat.eqb_refl. reflexivity.
    + f_equal. f_equal. unfold r. unfold is_regularized in Er. destruct (cr_regularization (nn_criterion net)); try discriminate.
      cbn [reg_cost]. change (@nzero R NumR) with 0. ring.
  - unfold g'. destruct (is_regularized (nn_criterion net)); [rewrite map2_length|]; lia.
  - intros q Hq.
    destruct (backward_ok ks (vset w q) (nth q w 0) (length w) _ 0 (fun _ => X) (nrows X) (mcols X) c (fun _ _ => 0) Sm
              (vset_wcurve w q) ltac:(lia) HW (const_curve X _ WX)) as (dYq & CYq & Adjq).
    destruct (Adjq G (repeat None (length w)) SG (repeat_length _ _)) as (gq & GXq & EBq & Lgq & _ & Iq).
    rewrite vset_self in EBq. cbn [Nat.add] in EBq. rewrite Enil in EBq. cbn [firstn app] in EBq. rewrite app_nil_r in EBq.
    assert (gq = g).
    { apply map_Some_inj. rewrite EB in EBq. apply Ok_inj in EBq. apply (f_equal fst) in EBq. apply (f_equal snd) in EBq. cbn [fst snd] in EBq. auto. }
    subst gq. cbn [Nat.add] in Iq. rewrite inner_zero, Rplus_0_r in Iq.
    rewrite (sumR_ext _ _ (fun k => if (q =? k)%nat then nth k g 0 else 0)) in Iq.
    2:{ intros k _. destruct (q =? k)%nat; ring. }
    rewrite (sumR_pick _ (fun k => nth k g 0)) in Iq by lia.
    exists (nth q g 0 / INR (nrows X)). split.
    + eexists. split; [intros x; apply Hdc; apply vset_length|]. rewrite <- Iq.
      apply (sum_entries_curve f f' (fun x => net_fwd ks (vset w q x) 0 X) (nth q w 0) (nrows X) c dYq T G CYq).
      rewrite vset_self. exact HG.
    + assert (Hn0 : INR (nrows X) <> 0) by (apply not_0_INR; lia).
      replace (INR (nrows X) * (nth q g 0 / INR (nrows X))) with (nth q g 0) by (field; exact Hn0).
      unfold g'. unfold is_regularized. fold r.
      assert (EQ : nth q (map2 (fun x y => x + y) g (mdata (reg_grad r (as_column w)))) 0 = nth q g 0 + entry (reg_grad r (as_column w)) q 0).
      { rewrite (map2_nth _ _ _ _ 0 0) by lia. f_equal. rewrite <- (mdata_nth _ q 0) by (auto; lia). f_equal. rewrite CR. lia. }
      destruct r; try exact EQ. rewrite reg_none_entry. ring.
Qed.
