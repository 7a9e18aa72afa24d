(** Costs are least at the targets, and bound the number of errors. *)
From Coq Require Import List Arith Lia Bool Reals Lra.
From Verif Require Import Base BaseLemmas Num NumFn Linalg LinalgR Spec_Calc CalcR Spec_Cost Model_Cost Proof_Cost Model_Score Model_Toolkit Model_Regression Proof_NBFit Proof_KMeans Proof_KMeans3 Spec_Errors.
Import ListNotations.
Local Open Scope R_scope.

Lemma sum_entries_le n c f g : (forall i j, (i < n)%nat -> (j < c)%nat -> f i j <= g i j) -> sum_entries n c f <= sum_entries n c g.
Proof. intros H. unfold sum_entries. apply sumR_le. intros i Hi. apply sumR_le. auto. Qed.
Lemma sum_entries_le_eq n c f g : (forall i j, (i < n)%nat -> (j < c)%nat -> f i j <= g i j) -> sum_entries n c f = sum_entries n c g ->
  forall i j, (i < n)%nat -> (j < c)%nat -> f i j = g i j.
Proof.
  intros H E i j Hi Hj. unfold sum_entries in E.
  apply (sum_le_eq c (f i) (g i)); auto. apply (sum_le_eq n (fun i => sumR c (f i)) (fun i => sumR c (g i))); auto.
  intros i' Hi'. apply sumR_le. auto.
Qed.
Lemma sum_entries_scal n c a f : sum_entries n c (fun i j => a * f i j) = a * sum_entries n c f.
Proof. unfold sum_entries. rewrite <- sumR_scal. apply sumR_ext. intros. apply sumR_scal. Qed.

Lemma entries_inj (o t : matrix R) : mwf o -> mwf t -> nrows o = nrows t -> mcols o = mcols t ->
  (forall i j, (i < nrows o)%nat -> (j < mcols o)%nat -> entry o i j = entry t i j) -> o = t.
Proof.
  destruct o as [ro c], t as [rt c']. unfold mwf, nrows, entry. cbn [mrows mcols]. intros Wo Wt L -> H. f_equal.
  apply (nth_ext _ _ [] [] L). intros i Hi.
  assert (L1 : length (nth i ro []) = c') by (apply (proj1 (Forall_forall _ _) Wo); now apply nth_In).
  assert (L2 : length (nth i rt []) = c') by (apply (proj1 (Forall_forall _ _) Wt); apply nth_In; lia).
  apply (nth_ext _ _ 0 0); [lia|]. intros j Hj. apply H; lia.
Qed.

(** ** Least at the targets *)
Lemma ce_entry t o : 0 <= t <= 1 -> 0 < o < 1 -> t * ln o + (1 - t) * ln (1 - o) <= t * ln t + (1 - t) * ln (1 - t) /\
  (t * ln o + (1 - t) * ln (1 - o) = t * ln t + (1 - t) * ln (1 - t) -> o = t).
Proof.
  intros Ht Ho. destruct (gibbs2 t (1 - t) o) as [G1 G2]; try lra. replace (t / (t + (1 - t))) with t in * by (field; lra). auto.
Qed.
Lemma ce_least o t : mwf o -> mwf t -> same_shape o t = true -> (0 < nrows o)%nat -> entries_within o -> entries_unit t ->
  exists c, ce_cost o t = Ok c /\ cross_entropy t t <= c /\ (c = cross_entropy t t <-> o = t).
Proof.
  intros Wo Wt S Hn Ho Ht. exists (cross_entropy o t). split; [now apply ce_cost_entries|].
  pose proof S as S'. apply same_shape_true in S'. destruct S' as [Sr Sc]. unfold cross_entropy. rewrite <- Sr, <- Sc.
  assert (Hp : 0 < INR (nrows o)) by now apply lt_0_INR.
  set (f := fun i j => entry t i j * ln (entry o i j) + (1 - entry t i j) * ln (1 - entry o i j)).
  set (g := fun i j => entry t i j * ln (entry t i j) + (1 - entry t i j) * ln (1 - entry t i j)).
  assert (FG : forall i j, (i < nrows o)%nat -> (j < mcols o)%nat -> f i j <= g i j /\ (f i j = g i j -> entry o i j = entry t i j)).
  { intros i j Hi Hj. apply ce_entry; [apply Ht; lia|apply Ho; auto]. }
  assert (L : sum_entries (nrows o) (mcols o) f <= sum_entries (nrows o) (mcols o) g) by (apply sum_entries_le; intros; apply FG; auto).
  split.
  - unfold Rdiv. apply Rmult_le_compat_r; [left; now apply Rinv_0_lt_compat|lra].
  - split.
    + intros E. apply entries_inj; auto. intros i j Hi Hj. apply FG; auto. apply (sum_entries_le_eq (nrows o) (mcols o) f g); auto; [intros; apply FG; auto|].
      unfold Rdiv in E. apply Rmult_eq_reg_r in E; [lra|]. apply Rinv_neq_0_compat. lra.
    + intros ->. reflexivity.
Qed.

Lemma mse_least o t : mwf o -> mwf t -> same_shape o t = true -> (0 < nrows o)%nat ->
  exists c, mse_cost o t = Ok c /\ 0 <= c /\ (c = 0 <-> o = t).
Proof.
  intros Wo Wt S Hn. eexists. split; [apply mse_cost_entries; auto|].
  pose proof S as S'. apply same_shape_true in S'. destruct S' as [Sr Sc].
  assert (Hp : 0 < 2 * INR (nrows o)) by (pose proof (lt_0_INR _ Hn); lra).
  set (f := fun i j => (entry o i j - entry t i j) ^ 2).
  assert (Z : sum_entries (nrows o) (mcols o) (fun _ _ => 0) = 0) by (unfold sum_entries; apply sumR_zero; intros; apply sumR_zero; auto).
  assert (G : 0 <= sum_entries (nrows o) (mcols o) f) by (rewrite <- Z; apply sum_entries_le; intros; apply pow2_ge_0).
  split.
  - apply Rmult_le_pos; auto. left. now apply Rinv_0_lt_compat.
  - split.
    + intros E. assert (E' : sum_entries (nrows o) (mcols o) f = 0).
      { apply Rmult_eq_reg_r with (/ (2 * INR (nrows o))); [|apply Rinv_neq_0_compat; lra]. rewrite Rmult_0_l. exact E. }
      apply entries_inj; auto. intros i j Hi Hj.
      assert (K : 0 = f i j) by (apply (sum_entries_le_eq (nrows o) (mcols o) (fun _ _ => 0) f); auto; [intros; apply pow2_ge_0|now rewrite Z]).
      unfold f in K. simpl in K. nra.
    + intros <-. replace (sum_entries (nrows o) (mcols o) f) with 0; [unfold Rdiv; ring|]. rewrite <- Z. apply sum_entries_ext. intros. unfold f. ring.
Qed.

(** ** Errors *)
Lemma ln2_pos : 0 < ln 2. Proof. rewrite <- ln_1. apply ln_increasing; lra. Qed.
Lemma ln_half : ln (1 / 2) = - ln 2. Proof. unfold Rdiv. rewrite Rmult_1_l. apply ln_Rinv. lra. Qed.
Lemma ln_mono x y : 0 < x -> x <= y -> ln x <= ln y.
Proof. intros Hx [H|H]; [left; now apply ln_increasing|subst; lra]. Qed.

Lemma ce_errors o t : mwf o -> mwf t -> same_shape o t = true -> (0 < nrows o)%nat -> entries_within o -> binary t ->
  exists c, ce_cost o t = Ok c /\ wrong_entries o t <= INR (nrows o) * c / ln 2.
Proof.
  intros Wo Wt S Hn Ho Ht. exists (cross_entropy o t). split; [now apply ce_cost_entries|].
  apply same_shape_true in S. destruct S as [Sr Sc]. assert (Hp : 0 < INR (nrows o)) by now apply lt_0_INR.
  unfold wrong_entries, cross_entropy.
  set (f := fun i j => entry t i j * ln (entry o i j) + (1 - entry t i j) * ln (1 - entry o i j)).
  replace (INR (nrows o) * (- sum_entries (nrows o) (mcols o) f / INR (nrows o)) / ln 2) with (- / ln 2 * sum_entries (nrows o) (mcols o) f) by (field; pose proof ln2_pos; lra).
  rewrite <- sum_entries_scal. apply sum_entries_le. intros i j Hi Hj. pose proof (Ho i j Hi Hj) as Hx. pose proof ln2_pos as L2.
  assert (Hi2 : 0 < / ln 2) by now apply Rinv_0_lt_compat.
  assert (K : - / ln 2 * f i j = / ln 2 * - f i j) by ring. rewrite K.
  assert (Hone : / ln 2 * ln 2 = 1) by (field; lra).
  assert (U : forall x, 0 < x < 1 -> ln x <= 0) by (intros x H; rewrite <- ln_1; apply ln_mono; lra).
  unfold f. destruct (Ht i j ltac:(lia) ltac:(lia)) as [E|E]; rewrite E; unfold rounded.
  - destruct (Rlt_dec (1 / 2) (entry o i j)) as [L|L].
    + destruct (Req_EM_T 1 0); [lra|]. pose proof (ln_mono (1 - entry o i j) (1 / 2) ltac:(lra) ltac:(lra)) as M. rewrite ln_half in M.
      apply Rle_trans with (/ ln 2 * ln 2); [lra|]. apply Rmult_le_compat_l; lra.
    + destruct (Req_EM_T 0 0); [|lra]. pose proof (U (1 - entry o i j) ltac:(lra)). apply Rmult_le_pos; lra.
  - destruct (Rlt_dec (1 / 2) (entry o i j)) as [L|L].
    + destruct (Req_EM_T 1 1); [|lra]. pose proof (U (entry o i j) ltac:(lra)). apply Rmult_le_pos; lra.
    + destruct (Req_EM_T 0 1); [lra|]. pose proof (ln_mono (entry o i j) (1 / 2) ltac:(lra) ltac:(lra)) as M. rewrite ln_half in M.
      apply Rle_trans with (/ ln 2 * ln 2); [lra|]. apply Rmult_le_compat_l; lra.
Qed.

Lemma mse_errors o t : mwf o -> mwf t -> same_shape o t = true -> (0 < nrows o)%nat -> binary t ->
  exists c, mse_cost o t = Ok c /\ wrong_entries o t <= 8 * INR (nrows o) * c.
Proof.
  intros Wo Wt S Hn Ht. eexists. split; [apply mse_cost_entries; auto|].
  apply same_shape_true in S. destruct S as [Sr Sc]. assert (Hp : 0 < INR (nrows o)) by now apply lt_0_INR.
  unfold wrong_entries. set (f := fun i j => (entry o i j - entry t i j) ^ 2).
  replace (8 * INR (nrows o) * (sum_entries (nrows o) (mcols o) f / (2 * INR (nrows o)))) with (4 * sum_entries (nrows o) (mcols o) f) by (field; lra).
  rewrite <- sum_entries_scal. apply sum_entries_le. intros i j Hi Hj. unfold f.
  destruct (Ht i j ltac:(lia) ltac:(lia)) as [E|E]; rewrite E; unfold rounded; destruct (Rlt_dec (1 / 2) (entry o i j)) as [L|L].
  - destruct (Req_EM_T 1 0); [lra|]. nra.
  - destruct (Req_EM_T 0 0); [|lra]. pose proof (pow2_ge_0 (entry o i j - 0)). lra.
  - destruct (Req_EM_T 1 1); [|lra]. pose proof (pow2_ge_0 (entry o i j - 1)). lra.
  - destruct (Req_EM_T 0 1); [lra|]. nra.
Qed.

(** ** Accuracy *)
Lemma wrong_accuracy (o t : list R) : length o = length t -> (0 < length t)%nat ->
  exists a, accuracy (F := R) neqb (map rounded o) t = Ok a /\ wrong_entries (colm o) (colm t) = INR (length t) * (1 - a).
Proof.
  intros L Hn. unfold accuracy. rewrite map_length, (proj2 (Nat.eqb_eq _ _) L). cbn [rassert]. eexists. split; [reflexivity|].
  cbn [ndiv nofnat NumR]. rewrite L. set (m := length (filter _ _)).
  assert (Hp : 0 < INR (length t)) by now apply lt_0_INR.
  replace (INR (length t) * (1 - INR m / INR (length t))) with (INR (length t) - INR m) by (field; lra).
  unfold wrong_entries, sum_entries. rewrite colm_nrows. cbn [mcols colm sumR].
  rewrite (sumR_ext (length o) _ (fun i => if Req_EM_T (rounded (nth i o 0)) (nth i t 0) then 0 else 1)) by (intros i Hi; rewrite !colm_entry; lra).
  unfold m. clear m Hn Hp. revert o L. induction t as [|y t IH] using rev_ind; intros o L.
  - destruct o; [|discriminate]. cbn. lra.
  - rewrite app_length in L. cbn in L. destruct (exists_last (l := o)) as (o' & x & ->); [intros ->; cbn in L; lia|].
    rewrite app_length in L |- *. cbn [length] in *. assert (L' : length o' = length t) by lia.
    rewrite Nat.add_1_r. cbn [sumR]. rewrite (sumR_ext (length o') _ (fun i => if Req_EM_T (rounded (nth i o' 0)) (nth i t 0) then 0 else 1)).
    2:{ intros i Hi. rewrite !app_nth1 by lia. reflexivity. }
    rewrite (IH o' L'), (app_nth2 o') by lia. rewrite L', (app_nth2 t) by lia. rewrite !Nat.sub_diag. cbn [nth].
    rewrite map_app, app_length, plus_INR. cbn [map length].
    assert (C : combine (map rounded o' ++ [rounded x]) (t ++ [y]) = combine (map rounded o') t ++ [(rounded x, y)]).
    { assert (L2 : length (map rounded o') = length t) by now rewrite map_length. clear - L2. revert t L2. induction (map rounded o') as [|a l IHl]; intros [|b t] L2; cbn in *; try discriminate; auto. f_equal. apply IHl. lia. }
    rewrite C, filter_app, app_length, plus_INR. cbn [filter fst snd]. cbn [neqb NumR]. destruct (Req_EM_T (rounded x) y); cbn [length]; cbn [INR]; lra.
Qed.
Lemma ce_accuracy (o t : list R) : length o = length t -> (0 < length t)%nat -> (forall x, In x o -> 0 < x < 1) -> (forall y, In y t -> y = 0 \/ y = 1) ->
  exists c a, ce_cost_vec o t = Ok c /\ accuracy (F := R) neqb (map rounded o) t = Ok a /\ 1 - a <= c / ln 2.
Proof.
  intros L Hn Ho Ht. destruct (wrong_accuracy o t L Hn) as (a & Ea & W).
  destruct (ce_errors (colm o) (colm t) (colm_wf o) (colm_wf t)) as (c & Ec & B).
  - rewrite colm_shape. now apply Nat.eqb_eq.
  - rewrite colm_nrows. lia.
  - intros i j Hi Hj. rewrite colm_nrows in Hi. cbn in Hj. replace j with 0%nat by lia. rewrite colm_entry. apply Ho. now apply nth_In.
  - intros i j Hi Hj. rewrite colm_nrows in Hi. cbn in Hj. replace j with 0%nat by lia. rewrite colm_entry. apply Ht. now apply nth_In.
  - exists c, a. rewrite ce_cost_vec_col. split; auto. split; auto. rewrite W, colm_nrows, L in B.
    assert (Hp : 0 < INR (length t)) by now apply lt_0_INR.
    apply Rmult_le_reg_l with (INR (length t)); auto. unfold Rdiv in *. rewrite <- Rmult_assoc. exact B.
Qed.
Lemma mse_accuracy (o t : list R) : length o = length t -> (0 < length t)%nat -> (forall y, In y t -> y = 0 \/ y = 1) ->
  exists c a, mse_cost_vec o t = Ok c /\ accuracy (F := R) neqb (map rounded o) t = Ok a /\ 1 - a <= 8 * c.
Proof.
  intros L Hn Ht. destruct (wrong_accuracy o t L Hn) as (a & Ea & W).
  destruct (mse_errors (colm o) (colm t) (colm_wf o) (colm_wf t)) as (c & Ec & B).
  - rewrite colm_shape. now apply Nat.eqb_eq.
  - rewrite colm_nrows. lia.
  - intros i j Hi Hj. rewrite colm_nrows in Hi. cbn in Hj. replace j with 0%nat by lia. rewrite colm_entry. apply Ht. now apply nth_In.
  - exists c, a. rewrite mse_cost_vec_col. split; auto. split; auto. rewrite W, colm_nrows, L in B.
    assert (Hp : 0 < INR (length t)) by now apply lt_0_INR.
    apply Rmult_le_reg_l with (INR (length t)); auto. lra.
Qed.

(** The cost that logistic regression minimises bounds the errors it makes. *)
Lemma logistic_accuracy (inputs : matrix R) (targets w : list R) cost grad : (0 < length targets)%nat -> (forall y, In y targets -> y = 0 \/ y = 1) ->
  log_compute_grad (with_ones inputs) targets w = Ok (cost, grad) ->
  exists out a, log_predict {| log_parameters := Some w |} inputs = Ok out /\ accuracy (F := R) neqb (map rounded out) targets = Ok a /\ 1 - a <= cost / ln 2.
Proof.
  intros Hn Ht H. unfold log_compute_grad in H. unfold log_predict. cbn [log_parameters].
  destruct (rmat_vec (with_ones inputs) w) as [z| |] eqn:Z; cbn [rbind] in H; try discriminate. cbn [rbind].
  destruct (ce_cost_vec (map sigmoid z) targets) as [c| |] eqn:C; cbn [rbind] in H; try discriminate.
  assert (L : length (map sigmoid z) = length targets).
  { unfold ce_cost_vec in C. destruct (Nat.eqb_spec (length (map sigmoid z)) (length targets)); [auto|discriminate]. }
  destruct (ce_accuracy (map sigmoid z) targets L Hn) as (c' & a & E1 & E2 & E3); auto.
  - intros x Hx. apply in_map_iff in Hx. destruct Hx as (y & <- & _). unfold sigmoid. cbn [ndiv nadd nopp nonev nexp NumR NumFnR].
    pose proof (exp_pos (- y)). split; [apply Rdiv_lt_0_compat; lra|]. apply Rmult_lt_reg_r with (1 + exp (- y)); [lra|]. unfold Rdiv. rewrite Rmult_assoc, Rinv_l by lra. lra.
  - rewrite C in E1. injection E1 as <-. exists (map sigmoid z), a. split; auto. split; auto.
    match type of H with context [rbind ?x _] => destruct x as [dd| |] end; cbn [rbind] in H; try discriminate.
    match type of H with context [rbind ?x _] => destruct x as [gg| |] end; cbn [rbind] in H; try discriminate.
    injection H as <- _. exact E3.
Qed.

(** Concrete cases. *)
Lemma errors_case : let o := Mat [[3/4]; [1/4]; [5/8]] 1 in let t := Mat [[1]; [0]; [0]] 1 in
  mwf o /\ mwf t /\ same_shape o t = true /\ (0 < nrows o)%nat /\ entries_within o /\ entries_unit t /\ binary t /\ wrong_entries o t = 1.
Proof.
  cbv zeta. split; [repeat constructor|]. split; [repeat constructor|]. split; [reflexivity|]. split; [cbn; lia|].
  split; [|split; [|split]].
  - intros i j Hi Hj. cbn in Hi, Hj. replace j with 0%nat by lia. destruct i as [|[|[|i]]]; try lia; cbn; lra.
  - intros i j Hi Hj. cbn in Hi, Hj. replace j with 0%nat by lia. destruct i as [|[|[|i]]]; try lia; cbn; lra.
  - intros i j Hi Hj. cbn in Hi, Hj. replace j with 0%nat by lia. destruct i as [|[|[|i]]]; try lia; cbn; lra.
  - unfold wrong_entries, sum_entries, rounded. cbn. repeat match goal with |- context [Rlt_dec ?a ?b] => destruct (Rlt_dec a b); try lra end.
    repeat match goal with |- context [Req_EM_T ?a ?b] => destruct (Req_EM_T a b); try lra end.
Qed.
Lemma logistic_accuracy_case : (0 < length [1; 0])%nat /\ (forall y, In y [1; 0] -> y = 0 \/ y = 1) /\
  exists cost grad, log_compute_grad (with_ones (Mat [[2]; [-2]] 1)) [1; 0] [0; 1] = Ok (cost, grad).
Proof.
  split; [cbn; lia|]. split; [intros y [<-|[<-|[]]]; auto|]. eexists. eexists. reflexivity.
Qed.
