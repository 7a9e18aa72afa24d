From Coq Require Import List Arith Reals Lra Lia Bool.
From Verif Require Import Base BaseLemmas Num NumFn Linalg LinalgR Spec_Calc CalcR Model_Cost Spec_Cost.
Import ListNotations.
Local Open Scope R_scope.

Lemma msumf_entries (m : matrix R) : mwf m -> msumf m = sum_entries (nrows m) (mcols m) (entry m).
Proof.
  intros W. unfold msumf, sum_entries. rewrite rsum_nth, map_length. apply sumR_ext. intros i Hi.
  change 0 with (rsum []). rewrite map_nth, rsum_nth. rewrite wf_row by auto. reflexivity.
Qed.

Lemma mzip_wf (f : R -> R -> R) a b : mwf a -> mwf b -> mcols a = mcols b -> mwf (mzip f a b).
Proof.
  unfold mwf, mzip; simpl. intros Wa Wb Hc. apply Forall_forall. intros r Hr.
  apply In_nth_error in Hr. destruct Hr as [k Hk]. rewrite map2_nth_error in Hk.
  destruct (nth_error (mrows a) k) eqn:Ea; [|discriminate]. destruct (nth_error (mrows b) k) eqn:Eb; [|discriminate].
  inversion Hk; subst. rewrite map2_length. rewrite Forall_forall in Wa, Wb.
  rewrite Wa, Wb by (eapply nth_error_In; eauto). lia.
Qed.
Lemma mzip_entry (f : R -> R -> R) a b i j :
  mwf a -> mwf b -> mcols a = mcols b -> (i < nrows a)%nat -> (i < nrows b)%nat -> (j < mcols a)%nat ->
  entry (mzip f a b) i j = f (entry a i j) (entry b i j).
Proof.
  intros Wa Wb Hc Hi Hi' Hj. unfold entry, mzip; simpl.
  rewrite (map2_nth _ _ _ _ [] []) by auto. rewrite (map2_nth _ _ _ _ 0 0); auto; rewrite wf_row; auto; lia.
Qed.
Lemma mzip_nrows (f : R -> R -> R) a b : nrows (mzip f a b) = min (nrows a) (nrows b).
Proof. unfold nrows, mzip; simpl. apply map2_length. Qed.
Lemma mmap_wf (f : R -> R) a : mwf a -> mwf (mmap f a).
Proof.
  unfold mwf, mmap; simpl. rewrite Forall_map. intros H. eapply Forall_impl; [|apply H].
  intros r Hr. rewrite map_length. auto.
Qed.
Lemma mmap_nrows (f : R -> R) a : nrows (mmap f a) = nrows a.
Proof. unfold nrows, mmap; simpl. apply map_length. Qed.
Lemma mmap_entry (f : R -> R) a i j : mwf a -> (i < nrows a)%nat -> (j < mcols a)%nat ->
  entry (mmap f a) i j = f (entry a i j).
Proof.
  intros Wa Hi Hj. unfold entry, mmap; simpl. change [] with (map f []) at 1. rewrite map_nth.
  rewrite (nth_indep _ 0 (f 0)) by (rewrite map_length, wf_row; auto). apply map_nth.
Qed.

(** Both costs are a constant times a sum of an entrywise function. *)
Lemma mzip_zip (f g : R -> R -> R) (h : R -> R -> R) a b :
  mzip h (mzip f a b) (mzip g a b) = mzip (fun x y => h (f x y) (g x y)) a b.
Proof.
  unfold mzip; simpl. f_equal. generalize (mrows b). induction (mrows a) as [|r l IH]; intros [|s l']; simpl; auto.
  rewrite IH. f_equal. clear. revert s; induction r as [|x r IH]; intros [|y s]; simpl; auto. rewrite IH; auto.
Qed.
Lemma sum_entries_ext n c f g : (forall i j, (i < n)%nat -> (j < c)%nat -> f i j = g i j) -> sum_entries n c f = sum_entries n c g.
Proof. intros H. unfold sum_entries. apply sumR_ext. intros i Hi. apply sumR_ext. intros j Hj. auto. Qed.

Lemma mse_cost_R o t : same_shape o t = true ->
  mse_cost o t = Ok (msumf (mzip (fun x y => (x - y) * (x - y)) o t) / (2 * INR (nrows o))).
Proof.
  intros S. unfold mse_cost. rewrite S. cbn [rassert]. rewrite msum_R.
  rewrite mzip_zip. f_equal. apply same_shape_true in S. destruct S as [S _].
  rewrite mzip_nrows, <- S, Nat.min_id. reflexivity.
Qed.
Lemma mse_cost_entries o t : mwf o -> mwf t -> same_shape o t = true ->
  mse_cost o t = Ok (sum_entries (nrows o) (mcols o) (fun i j => (entry o i j - entry t i j) ^ 2) / (2 * INR (nrows o))).
Proof.
  intros Wo Wt S. rewrite mse_cost_R by auto. f_equal. f_equal.
  apply same_shape_true in S. destruct S as [Sr Sc].
  rewrite msumf_entries by (apply mzip_wf; auto). rewrite mzip_nrows, <- Sr, Nat.min_id. simpl.
  apply sum_entries_ext. intros i j Hi Hj. rewrite mzip_entry by (auto; lia). ring.
Qed.

Lemma nmse_spec o t : mwf o -> mwf t ->
  (same_shape o t = false -> neg_mean_squared_error o t = Panic) /\
  (same_shape o t = true -> (0 < nrows o)%nat ->
    neg_mean_squared_error o t = Ok (- mean_squared_error o t) /\
    - mean_squared_error o t <= 0 /\
    (mean_squared_error o t = 0 <-> o = t)).
Proof.
  intros Wo Wt. split.
  - intros S. unfold neg_mean_squared_error, mse_cost. rewrite S. auto.
  - intros S Hn. assert (Hp : 0 < INR (nrows o)) by (apply lt_0_INR; auto).
    assert (Hge : 0 <= sum_entries (nrows o) (mcols o) (fun i j => (entry o i j - entry t i j) ^ 2)).
    { unfold sum_entries. apply sumR_ge0. intros. apply sumR_ge0. intros. apply pow2_ge_0. }
    split; [|split].
    + unfold neg_mean_squared_error. rewrite mse_cost_entries by auto. cbn [rbind]. f_equal.
      unfold mean_squared_error. simpl. field. lra.
    + unfold mean_squared_error. assert (0 <= sum_entries (nrows o) (mcols o) (fun i j => (entry o i j - entry t i j) ^ 2) / INR (nrows o)); [|lra].
      apply Rmult_le_pos; auto. left; apply Rinv_0_lt_compat; auto.
    + split.
      * intros E. unfold mean_squared_error in E.
        assert (E' : sum_entries (nrows o) (mcols o) (fun i j => (entry o i j - entry t i j) ^ 2) = 0).
        { apply Rmult_eq_reg_r with (/ INR (nrows o)); [|apply Rinv_neq_0_compat; lra]. rewrite Rmult_0_l. exact E. }
        clear E Hge. apply same_shape_true in S. destruct S as [Sr Sc].
        pose proof E' as E2. rewrite <- (sum_entries_ext _ _ (fun i j => entry (mzip (fun x y => (x - y) * (x - y)) o t) i j)) in E2.
        2:{ intros i j Hi Hj. rewrite mzip_entry by (auto; lia). ring. }
        assert (E3 : msumf (mzip (fun x y => (x - y) * (x - y)) o t) = 0).
        { rewrite msumf_entries by (apply mzip_wf; auto). rewrite mzip_nrows, <- Sr, Nat.min_id. simpl. exact E2. }
        clear E' E2. unfold msumf in E3. apply rsum_ge0_0 in E3.
        2:{ apply Forall_map. apply Forall_forall. intros r Hr. apply rsum_ge0.
            unfold mzip in Hr; simpl in Hr. apply In_nth_error in Hr. destruct Hr as [k Hk]. rewrite map2_nth_error in Hk.
            destruct (nth_error (mrows o) k); [|discriminate]. destruct (nth_error (mrows t) k); [|discriminate].
            inversion Hk; subst. clear. revert l0; induction l; intros [|y l0]; simpl; constructor; auto. apply Rle_0_sqr. }
        destruct o as [ro co], t as [rt ct]; unfold nrows in *; simpl in *. subst ct. f_equal.
        unfold mwf in *; simpl in *. clear Hn Hp. revert rt Wt Sr E3; induction ro as [|r ro IH]; intros [|s rt] Wt Sr E3; simpl in *; try discriminate; auto.
        inversion E3; inversion Wo; inversion Wt; subst. f_equal; [|apply IH; auto].
        apply rsum_ge0_0 in H1.
        2:{ clear. revert s; induction r; intros [|y s]; simpl; constructor; auto. apply Rle_0_sqr. }
        assert (Hl : length r = length s) by congruence. clear - H1 Hl.
        revert s H1 Hl; induction r as [|x r IH]; intros [|y s] H1 Hl; simpl in *; try discriminate; auto.
        inversion H1; subst. f_equal; [nra|]. apply IH; auto.
      * intros <-. unfold mean_squared_error. rewrite (sum_entries_ext _ _ _ (fun _ _ => 0)).
        2:{ intros; ring. } unfold sum_entries. rewrite (sumR_ext _ _ (fun _ => 0)).
        2:{ intros; apply sumR_zero. auto. }
        rewrite sumR_zero by auto. unfold Rdiv; lra.
Qed.

(** Gradients. *)
Lemma cost_partial (f f' : R -> R -> R) k o t i j :
  mwf o -> mwf t -> same_shape o t = true -> (i < nrows o)%nat -> (j < mcols o)%nat ->
  derivable_pt_lim (fun x => f x (entry t i j)) (entry o i j) (f' (entry o i j) (entry t i j)) ->
  derivable_pt_lim (fun x => k * msumf (mzip f (mset o i j x) t)) (entry o i j)
    (k * f' (entry o i j) (entry t i j)).
Proof.
  intros Wo Wt S Hi Hj D. apply same_shape_true in S. destruct S as [Sr Sc].
  apply (dlim_ext (fun x => k * ((msumf (mzip f o t) - f (entry o i j) (entry t i j)) + f x (entry t i j)))).
  { intros y. rewrite msumf_mset_zip by auto. auto. }
  replace (k * f' (entry o i j) (entry t i j)) with (k * (0 + f' (entry o i j) (entry t i j))) by ring.
  apply derivable_pt_lim_scal. apply derivable_pt_lim_plus; auto. apply derivable_pt_lim_const.
Qed.

Lemma mse_partial o t i j : mwf o -> mwf t -> same_shape o t = true -> (i < nrows o)%nat -> (j < mcols o)%nat ->
  has_partial (fun o => mse_cost o t) o i j ((entry o i j - entry t i j) / INR (nrows o)).
Proof.
  intros Wo Wt S Hi Hj.
  assert (Hn : INR (nrows o) <> 0) by (apply not_0_INR; lia).
  exists (fun x => (/ (2 * INR (nrows o))) * msumf (mzip (fun x y => (x - y) * (x - y)) (mset o i j x) t)). split.
  - intros x. rewrite mse_cost_R. + f_equal. rewrite mset_nrows. field. auto.
    + apply same_shape_true in S. apply same_shape_true. rewrite mset_nrows, mset_cols. auto.
  - replace ((entry o i j - entry t i j) / INR (nrows o)) with (/ (2 * INR (nrows o)) * ((fun a b => 2 * (a - b)) (entry o i j) (entry t i j))) by (simpl; field; auto).
    apply (cost_partial (fun x y => (x - y) * (x - y)) (fun a b => 2 * (a - b))); auto. cbv beta.
    replace (2 * (entry o i j - entry t i j)) with ((1 - 0) * (entry o i j - entry t i j) + (entry o i j - entry t i j) * (1 - 0)) by ring.
    apply (derivable_pt_lim_mult (fun x => x - entry t i j) (fun x => x - entry t i j));
      apply (derivable_pt_lim_minus id (fct_cte (entry t i j))); [apply derivable_pt_lim_id|apply derivable_pt_lim_const|apply derivable_pt_lim_id|apply derivable_pt_lim_const].
Qed.

Lemma mse_grad_entry o t i j : mwf o -> mwf t -> same_shape o t = true -> (i < nrows o)%nat -> (j < mcols o)%nat ->
  exists g, mse_grad o t = Ok g /\ nrows g = nrows o /\ mcols g = mcols o /\ entry g i j = entry o i j - entry t i j.
Proof.
  intros Wo Wt S Hi Hj. unfold mse_grad. rewrite S. cbn [rassert]. apply same_shape_true in S. destruct S as [Sr Sc].
  eexists; split; [reflexivity|]. split; [rewrite mzip_nrows; lia|]. split; [reflexivity|].
  rewrite mzip_entry by (auto; lia). reflexivity.
Qed.


Definition ce_entry (o t : R) : R := t * ln o + (1 - t) * ln (1 - o).
Lemma ce_row (o t : list R) :
  map2 Rplus (map2 Rmult t (map ln o)) (map2 Rmult (map (fun x => - x + 1) t) (map ln (map (fun x => - x + 1) o))) =
  map2 ce_entry o t.
Proof.
  revert t; induction o as [|x o IH]; intros [|y t]; simpl; auto.
  rewrite IH. f_equal. unfold ce_entry. replace (- x + 1) with (1 - x) by ring. ring.
Qed.
Lemma ce_cost_R o t : same_shape o t = true ->
  ce_cost o t = Ok (- msumf (mzip ce_entry o t) / INR (nrows o)).
Proof.
  intros S. unfold ce_cost. rewrite S. cbn [rassert]. rewrite msum_R. f_equal.
  cbn [nopp ndiv nofnat NumR]. f_equal. f_equal. f_equal. unfold mzip, mmap; simpl. 
  apply same_shape_true in S. destruct S as [_ ->]. f_equal.
  generalize (mrows t). induction (mrows o) as [|r l IH]; intros [|s l']; simpl; auto.
  rewrite IH. f_equal. apply ce_row.
Qed.
Lemma ce_cost_entries o t : mwf o -> mwf t -> same_shape o t = true -> ce_cost o t = Ok (cross_entropy o t).
Proof.
  intros Wo Wt S. rewrite ce_cost_R by auto. f_equal. unfold cross_entropy. f_equal. f_equal.
  apply same_shape_true in S. destruct S as [Sr Sc].
  rewrite msumf_entries by (apply mzip_wf; auto). rewrite mzip_nrows, <- Sr, Nat.min_id. simpl.
  apply sum_entries_ext. intros i j Hi Hj. rewrite mzip_entry by (auto; lia). reflexivity.
Qed.

Lemma ce_entry_deriv o t : 0 < o < 1 ->
  derivable_pt_lim (fun x => ce_entry x t) o ((fun o t => t / o - (1 - t) / (1 - o)) o t).
Proof.
  intros Ho. unfold ce_entry. simpl.
  replace (t / o - (1 - t) / (1 - o)) with (t * / o + (1 - t) * ((0 - 1) * / (1 - o))).
  2:{ unfold Rdiv. ring. }
  apply (derivable_pt_lim_plus (fun x => t * ln x) (fun x => (1 - t) * ln (1 - x))).
  - apply (derivable_pt_lim_scal ln). apply derivable_pt_lim_ln. lra.
  - apply (derivable_pt_lim_scal (fun x => ln (1 - x))).
    rewrite Rmult_comm. apply (derivable_pt_lim_comp (fun x => 1 - x) ln).
    + apply (derivable_pt_lim_minus (fct_cte 1) id); [apply derivable_pt_lim_const|apply derivable_pt_lim_id].
    + apply derivable_pt_lim_ln. lra.
Qed.

Lemma ce_partial o t i j : mwf o -> mwf t -> same_shape o t = true -> (i < nrows o)%nat -> (j < mcols o)%nat ->
  0 < entry o i j < 1 ->
  has_partial (fun o => ce_cost o t) o i j
    ((entry o i j - entry t i j) / (entry o i j * (1 - entry o i j)) / INR (nrows o)).
Proof.
  intros Wo Wt S Hi Hj Ho.
  assert (Hn : INR (nrows o) <> 0) by (apply not_0_INR; lia).
  exists (fun x => (- / INR (nrows o)) * msumf (mzip ce_entry (mset o i j x) t)). split.
  - intros x. rewrite ce_cost_R. + f_equal. rewrite mset_nrows. field. auto.
    + apply same_shape_true in S. apply same_shape_true. rewrite mset_nrows, mset_cols. auto.
  - replace ((entry o i j - entry t i j) / (entry o i j * (1 - entry o i j)) / INR (nrows o))
      with (- / INR (nrows o) * ((fun o t => t / o - (1 - t) / (1 - o)) (entry o i j) (entry t i j))).
    2:{ simpl. field. repeat split; auto; lra. }
    apply (cost_partial ce_entry (fun o t => t / o - (1 - t) / (1 - o))); auto. apply ce_entry_deriv. auto.
Qed.
Lemma ce_grad_entry o t i j : mwf o -> mwf t -> same_shape o t = true -> (i < nrows o)%nat -> (j < mcols o)%nat ->
  exists g, ce_grad o t = Ok g /\ nrows g = nrows o /\ mcols g = mcols o /\ entry g i j = (entry o i j - entry t i j) / (entry o i j * (1 - entry o i j)).
Proof.
  intros Wo Wt S Hi Hj. unfold ce_grad. rewrite S. cbn [rassert]. apply same_shape_true in S. destruct S as [Sr Sc].
  eexists; split; [reflexivity|].
  assert (W1 : mwf (mzip Rminus o t)) by (apply mzip_wf; auto).
  assert (W2 : mwf (mzip Rmult o (mmap (fun x => - x + 1) o))) by (apply mzip_wf; auto using mmap_wf).
  split; [rewrite !mzip_nrows, mmap_nrows; lia|]. split; [reflexivity|].
  cbn [ndiv nsub nmul nopp nadd nonev NumR].
  rewrite mzip_entry; auto; rewrite ?mzip_nrows, ?mmap_nrows; try lia.
  rewrite mzip_entry by (auto; lia). rewrite mzip_entry; auto using mmap_wf; rewrite ?mmap_nrows; auto.
  rewrite mmap_entry by auto. f_equal. ring.
Qed.

Lemma mse_grad_refuted (o t : matrix R) (i j : nat) :
  mwf o -> mwf t -> same_shape o t = true -> (i < nrows o)%nat -> (j < mcols o)%nat ->
  (2 <= nrows o)%nat -> entry o i j <> entry t i j ->
  exists g d, mse_grad o t = Ok g /\ has_partial (fun o => mse_cost o t) o i j d /\ entry g i j <> d.
Proof.
  intros Wo Wt S Hi Hj Hn Hne. destruct (mse_grad_entry o t i j Wo Wt S Hi Hj) as (g & Eg & _ & _ & Ee).
  exists g, ((entry o i j - entry t i j) / INR (nrows o)). split; auto. split; [apply mse_partial; auto|].
  rewrite Ee. intros E. assert (H2 : 2 <= INR (nrows o)) by (apply (le_INR 2); auto).
  set (D := entry o i j - entry t i j) in *. assert (D <> 0) by (unfold D; lra).
  assert (D * INR (nrows o) = D) by (rewrite E at 1; field; lra).
  assert (D * (INR (nrows o) - 1) = 0) by lra. apply Rmult_integral in H1. lra.
Qed.

(** The vector versions are the matrix versions on one-column matrices. *)
Definition colm (v : list R) : matrix R := Mat (map (fun x => [x]) v) 1.
Lemma colm_wf v : mwf (colm v).
Proof. unfold mwf, colm; simpl. apply Forall_forall. intros r Hr. apply in_map_iff in Hr. destruct Hr as (x & <- & _). auto. Qed.
Lemma colm_nrows v : nrows (colm v) = length v.
Proof. unfold nrows, colm; simpl. apply map_length. Qed.
Lemma colm_entry v i : entry (colm v) i 0 = nth i v 0.
Proof. unfold entry, colm; simpl. revert i; induction v; intros [|i]; simpl; auto. Qed.
Lemma colm_shape u v : same_shape (colm u) (colm v) = (length u =? length v)%nat.
Proof. unfold same_shape. rewrite !colm_nrows. simpl. apply andb_true_r. Qed.
Lemma colm_zip f u v : mzip f (colm u) (colm v) = colm (map2 f u v).
Proof. unfold mzip, colm; simpl. f_equal. revert v; induction u; intros [|y v]; simpl; auto. rewrite IHu; auto. Qed.
Lemma colm_map f u : mmap f (colm u) = colm (map f u).
Proof. unfold mmap, colm; simpl. f_equal. rewrite !map_map. reflexivity. Qed.
Lemma colm_sum u : msumf (colm u) = rsum u.
Proof. unfold msumf, colm; simpl. induction u as [|a u IH]; simpl in *; auto. rewrite IH. simpl. lra. Qed.
Lemma colm_set u i x : (i < length u)%nat -> mset (colm u) i 0 x = colm (vset u i x).
Proof.
  intros Hi. unfold mset, colm; simpl. f_equal. revert i Hi; induction u as [|a u IH]; intros [|i] Hi; simpl in *; auto; try lia.
  rewrite IH by lia. auto.
Qed.

Lemma mse_cost_vec_col u v : mse_cost_vec u v = mse_cost (colm u) (colm v).
Proof.
  unfold mse_cost_vec, mse_cost. rewrite colm_shape. f_equal. cbv zeta. rewrite !colm_zip, msum_R, colm_sum, colm_nrows, vsum_R.
  reflexivity.
Qed.
Lemma ce_cost_vec_col u v : ce_cost_vec u v = ce_cost (colm u) (colm v).
Proof.
  unfold ce_cost_vec, ce_cost. rewrite colm_shape. f_equal. cbv zeta.
  rewrite !colm_map, !colm_zip, msum_R, colm_sum, colm_nrows, vsum_R. reflexivity.
Qed.
Lemma has_partial_col f g u i d : (i < length u)%nat -> (forall w, f w = g (colm w)) ->
  has_partial g (colm u) i 0 d -> has_partial_vec f u i d.
Proof.
  intros Hi H (c & Hc & Hd). exists c. split.
  - intros x. rewrite H, <- colm_set by auto. apply Hc.
  - rewrite <- colm_entry. auto.
Qed.

Lemma mse_vec_spec (o t : list R) :
  (length o <> length t -> mse_cost_vec o t = Panic /\ mse_grad_vec o t = Panic) /\
  (length o = length t -> forall i, (i < length o)%nat ->
   has_partial_vec (fun o => mse_cost_vec o t) o i ((nth i o 0 - nth i t 0) / INR (length o)) /\
   exists g, mse_grad_vec o t = Ok g /\ length g = length o /\ nth i g 0 = nth i o 0 - nth i t 0).
Proof.
  split.
  - intros H. apply Nat.eqb_neq in H. unfold mse_cost_vec, mse_grad_vec. rewrite H. auto.
  - intros H i Hi. split.
    + apply (has_partial_col _ (fun m => mse_cost m (colm t))); auto. { intros; apply mse_cost_vec_col. }
      rewrite <- !colm_entry, <- colm_nrows. apply mse_partial; auto using colm_wf.
      * rewrite colm_shape. apply Nat.eqb_eq; auto. * rewrite colm_nrows; auto.
    + unfold mse_grad_vec. rewrite (proj2 (Nat.eqb_eq _ _) H). eexists; split; [reflexivity|].
      unfold vsub. rewrite map2_length. split; [lia|]. rewrite (map2_nth _ _ _ _ 0 0) by lia. reflexivity.
Qed.
Lemma ce_vec_spec (o t : list R) :
  (length o <> length t -> ce_cost_vec o t = Panic /\ ce_grad_vec o t = Panic) /\
  (length o = length t -> forall i, (i < length o)%nat -> 0 < nth i o 0 < 1 ->
   has_partial_vec (fun o => ce_cost_vec o t) o i
     ((nth i o 0 - nth i t 0) / (nth i o 0 * (1 - nth i o 0)) / INR (length o)) /\
   exists g, ce_grad_vec o t = Ok g /\ length g = length o /\
     nth i g 0 = (nth i o 0 - nth i t 0) / (nth i o 0 * (1 - nth i o 0))).
Proof.
  split.
  - intros H. apply Nat.eqb_neq in H. unfold ce_cost_vec, ce_grad_vec. rewrite H. auto.
  - intros H i Hi Ho. split.
    + apply (has_partial_col _ (fun m => ce_cost m (colm t))); auto. { intros; apply ce_cost_vec_col. }
      rewrite <- !colm_entry, <- colm_nrows. rewrite <- colm_entry in Ho. apply ce_partial; auto using colm_wf.
      * rewrite colm_shape. apply Nat.eqb_eq; auto. * rewrite colm_nrows; auto.
    + unfold ce_grad_vec. rewrite (proj2 (Nat.eqb_eq _ _) H). eexists; split; [reflexivity|].
      unfold vsub, velemul. rewrite !map2_length, map_length. split; [lia|].
      rewrite (map2_nth _ _ _ _ 0 0) by (rewrite !map2_length, ?map_length; lia).
      rewrite !(map2_nth _ _ _ _ 0 0) by (rewrite ?map_length; lia).
      cbn [nopp nadd nonev ndiv nsub nmul NumR].
      rewrite (nth_map (fun x => - x + 1) o i 0 0) by auto. f_equal. ring.
Qed.
