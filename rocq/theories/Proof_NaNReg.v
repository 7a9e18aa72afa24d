(** Lemmas for [Props_NaNReg]. *)
From Coq Require Import List Arith Lia Bool.
From Flocq Require Import Core BinarySingleNaN.
From Verif Require Import Base BaseLemmas Num NumF NumFn NumOrd Linalg LinalgR Model_Cost Model_Toolkit Model_Optim Model_Regression Spec_NaN Proof_NaN Spec_NaNReg.
Import ListNotations.

Lemma nan_opp (x : B64) : nnan x = true -> nnan (nopp x) = true.
Proof. now destruct x. Qed.
Lemma nan_abs (x : B64) : nnan x = true -> nnan (nabs x) = true.
Proof. now destruct x. Qed.
Lemma nan_map2 (f : B64 -> B64 -> B64) (u v : list B64) i : (forall x y, nnan x = true \/ nnan y = true -> nnan (f x y) = true) -> i < length u -> i < length v ->
  nnan (nth i u nzero) = true \/ nnan (nth i v nzero) = true -> exists x, In x (map2 f u v) /\ nnan x = true.
Proof. intros Hf Hu Hv H. eexists. split; [apply (map2_in f u v i nzero nzero); assumption|]. now apply Hf. Qed.
Lemma nan_dot (u v : list B64) i : i < length u -> i < length v -> nnan (nth i u nzero) = true \/ nnan (nth i v nzero) = true -> nnan (dot u v) = true.
Proof. intros. apply nan_vsum. eapply (nan_map2 nmul); eauto. apply nan_mul. Qed.
Lemma map2_len {A B C} (f : A -> B -> C) u : forall v, length u = length v -> length (map2 f u v) = length u.
Proof. induction u as [|x u IH]; intros [|y v] H; cbn in *; try discriminate; auto. Qed.
Lemma vscale_nan c v : all_nan v -> all_nan (vscale c v).
Proof. intro H. apply Forall_forall. intros x Hx. apply in_map_iff in Hx. destruct Hx as (y & <- & Hy). apply nan_mul. left. unfold all_nan in H. rewrite Forall_forall in H. auto. Qed.
Lemma vsub_all_nan u v : all_nan v -> all_nan (vsub u v).
Proof. revert v. induction u as [|x u IH]; intros v H; [constructor|]. destruct v as [|y v]; [constructor|]. inversion H; subst. cbn. constructor; [apply nan_sub; now right|]. now apply IH. Qed.
Lemma ones_wf (X : matrix B64) : mwf X -> mwf (with_ones X).
Proof. unfold mwf, with_ones. cbn [mrows mcols]. intro H. apply Forall_forall. intros r Hr. apply in_map_iff in Hr. destruct Hr as (x & <- & Hx). rewrite Forall_forall in H. cbn. now rewrite H. Qed.
Lemma ones_taint (X : matrix B64) y : tainted X y -> tainted (with_ones X) y.
Proof.
  intros (i & Hi & H). exists i. unfold nrows, with_ones in *. cbn [mrows]. rewrite map_length. split; [exact Hi|]. destruct H as [(j & Hj & H)|H]; [left|now right].
  exists (S j). rewrite (nth_indep _ _ (nonev :: [])) by (now rewrite map_length). rewrite (map_nth (cons nonev)). cbn. split; [lia|exact H].
Qed.
Lemma wf_row (X : matrix B64) i : mwf X -> i < nrows X -> length (nth i (mrows X) []) = mcols X.
Proof. intros W Hi. unfold mwf in W. rewrite Forall_forall in W. apply W, nth_In. exact Hi. Qed.

(** The outputs, or their distances to the targets, have a NaN at the row with one. *)
Lemma out_nan (X : matrix B64) y p : mwf X -> length p = mcols X -> length y = nrows X -> tainted X y ->
  exists i, i < nrows X /\ (nnan (nth i (mat_vec X p) nzero) = true \/ nnan (nth i y nzero) = true).
Proof.
  intros W Lp Ly (i & Hi & H). exists i. split; [exact Hi|]. destruct H as [(j & Hj & H)|H]; [left|now right].
  unfold mat_vec. rewrite (nth_indep _ _ (dot [] p)) by (now rewrite map_length). rewrite (map_nth (fun r => dot r p)). rewrite wf_row in Hj by assumption.
  apply (nan_dot _ _ j); [rewrite wf_row by assumption; exact Hj|lia|now left].
Qed.
(** Then every entry of the gradient is NaN. *)
Lemma grad_nan (X : matrix B64) d i : i < nrows X -> length d = nrows X -> nnan (nth i d nzero) = true ->
  all_nan (map (fun x => ndiv x (nofnat (nrows X))) (mat_vec (transpose X) d)) /\ length (map (fun x => ndiv x (nofnat (nrows X))) (mat_vec (transpose X) d)) = mcols X.
Proof.
  intros Hi Ld H. unfold mat_vec, transpose. cbn [mrows]. split; [|now rewrite !map_length, seq_length].
  apply Forall_forall. intros x Hx. apply in_map_iff in Hx. destruct Hx as (z & <- & Hz). apply nan_div. left. apply in_map_iff in Hz. destruct Hz as (c & <- & Hc).
  apply in_map_iff in Hc. destruct Hc as (j & <- & _). apply (nan_dot _ _ i); [unfold col; rewrite map_length; exact Hi|lia|now right].
Qed.
(** What makes gradient descent end with NaN: every gradient is NaN, and so is every cost. *)
Lemma gd_nan alpha (cg : list B64 -> res (B64 * list B64)) w : (forall p, length p = w -> exists c g, cg p = Ok (c, g) /\ nnan c = true /\ all_nan g /\ length g = w) ->
  forall n p c0, length p = w -> exists q, gd_loop alpha cg (S n) p c0 = Ok q /\ all_nan q /\ length q = w.
Proof.
  intros H. induction n as [|n IH]; intros p c0 Lp; destruct (H p Lp) as (c & g & E & Hc & Hg & Lg).
  - exists (vsub p (vscale alpha g)). cbn [gd_loop]. rewrite E. cbn [rbind]. rewrite nan_lt_l by (apply nan_abs, nan_sub; now right).
    unfold rvsub. assert (Lv : length (vscale alpha g) = w) by (unfold vscale; now rewrite map_length). rewrite Lv, Lp, Nat.eqb_refl. cbn [rassert rbind].
    split; [reflexivity|]. split; [apply vsub_all_nan, vscale_nan, Hg|]. unfold vsub. rewrite map2_len; [exact Lp|exact (eq_trans Lp (eq_sym Lv))].
  - remember (S n) as k. cbn [gd_loop]. rewrite E. cbn [rbind]. rewrite nan_lt_l by (apply nan_abs, nan_sub; now right).
    unfold rvsub. assert (Lv : length (vscale alpha g) = w) by (unfold vscale; now rewrite map_length). rewrite Lv, Lp, Nat.eqb_refl. cbn [rassert rbind].
    apply IH. unfold vsub. rewrite map2_len; [exact Lp|exact (eq_trans Lp (eq_sym Lv))].
Qed.
Lemma mse_nan (o t : list B64) i : length o = length t -> i < length o -> nnan (nth i o nzero) = true \/ nnan (nth i t nzero) = true ->
  exists c, mse_cost_vec o t = Ok c /\ nnan c = true /\ nnan (nth i (vsub o t) nzero) = true.
Proof.
  intros L Hi H. unfold mse_cost_vec. rewrite L, Nat.eqb_refl. cbn [rassert]. eexists. split; [reflexivity|].
  assert (D : nnan (nth i (vsub o t) nzero) = true). { unfold vsub. rewrite map2_nth with (da := nzero) (db := nzero) by lia. now apply nan_sub. }
  split; [|exact D]. apply nan_div. left. apply nan_vsum.
  assert (Lv : length (vsub o t) = length o) by (unfold vsub; now apply map2_len).
  apply (nan_map2 nmul _ _ i); [apply nan_mul|lia|lia|now left].
Qed.
Lemma lin_grad_nan (X : matrix B64) y : mwf X -> length y = nrows X -> tainted X y ->
  forall p, length p = mcols X -> exists c g, lr_compute_grad X y p = Ok (c, g) /\ nnan c = true /\ all_nan g /\ length g = mcols X.
Proof.
  intros W Ly T p Lp. destruct (out_nan X y p W Lp Ly T) as (i & Hi & H). unfold lr_compute_grad, rmat_vec. rewrite Lp, Nat.eqb_refl. cbn [rassert rbind].
  assert (Lo : length (mat_vec X p) = nrows X) by (unfold mat_vec; now rewrite map_length).
  destruct (mse_nan (mat_vec X p) y i (eq_trans Lo (eq_sym Ly)) ltac:(lia) H) as (c & -> & Hc & Hd). cbn [rbind]. unfold rvsub. rewrite Lo, Ly, Nat.eqb_refl. cbn [rassert rbind].
  assert (Lv : length (vsub (mat_vec X p) y) = nrows X) by (unfold vsub; rewrite map2_len; [exact Lo|exact (eq_trans Lo (eq_sym Ly))]).
  change (mcols (transpose X)) with (nrows X). rewrite Lv, Nat.eqb_refl. cbn [rassert rbind]. exists c. eexists. split; [reflexivity|]. split; [exact Hc|].
  apply (grad_nan X _ i Hi Lv Hd).
Qed.
Lemma pred_nan (Z : matrix B64) (v : list B64) : all_nan v -> length v = S (mcols Z) -> exists o, rmat_vec (with_ones Z) v = Ok o /\ all_nan o /\ length o = nrows Z.
Proof.
  intros Hv Lv. unfold rmat_vec. change (mcols (with_ones Z)) with (S (mcols Z)). rewrite Lv, Nat.eqb_refl. cbn [rassert]. eexists. split; [reflexivity|].
  unfold mat_vec, with_ones. cbn [mrows]. split; [|unfold nrows; now rewrite !map_length]. apply Forall_forall. intros x Hx. rewrite map_map in Hx. apply in_map_iff in Hx.
  destruct Hx as (r & <- & _). apply (nan_dot _ _ 0); [cbn; lia|lia|right]. destruct v as [|a v]; [discriminate|]. now inversion Hv.
Qed.
Theorem lin_nan (self : LinRegressor B64) (X : matrix B64) y : mwf X -> length y = nrows X -> tainted X y ->
  exists w, lr_train_with_optimization self X y = ({| lr_parameters := Some w |}, Ok tt) /\ length w = S (mcols X) /\ all_nan w.
Proof.
  intros W Ly T. unfold lr_train_with_optimization, gd_optimize. change (gd_iters gd_default) with (S 99).
  assert (Ln : nrows (with_ones X) = nrows X) by (unfold nrows, with_ones; cbn; apply map_length).
  destruct (gd_nan (gd_alpha gd_default) (lr_compute_grad (with_ones X) y) (mcols (with_ones X)) (lin_grad_nan _ _ (ones_wf X W) (eq_trans Ly (eq_sym Ln)) (ones_taint X y T)) 99
    (repeat nzero (mcols (with_ones X))) nzero (repeat_length _ _)) as (q & -> & Hq & Lq).
  exists q. split; [reflexivity|]. split; [exact Lq|exact Hq].
Qed.
Theorem lin_nan_predict w (Z : matrix B64) : all_nan w -> length w = S (mcols Z) ->
  exists o, lr_predict {| lr_parameters := Some w |} Z = Ok o /\ length o = nrows Z /\ all_nan o.
Proof. intros H L. destruct (pred_nan Z w H L) as (o & E & Ho & Lo). exists o. cbn [lr_predict lr_parameters]. auto. Qed.

Section Logistic.
  Context {NF : NumFn B64}.
  Hypothesis LN : libm_nan.
  Lemma sigmoid_nan (x : B64) : nnan x = true -> nnan (sigmoid x) = true.
  Proof. intro H. unfold sigmoid. apply nan_div. right. apply nan_add. right. apply LN. now apply nan_opp. Qed.
  Lemma ce_nan (o t : list B64) i : length o = length t -> i < length o -> nnan (nth i o nzero) = true \/ nnan (nth i t nzero) = true ->
    exists c, ce_cost_vec o t = Ok c /\ nnan c = true.
  Proof.
    intros L Hi H. unfold ce_cost_vec. rewrite L, Nat.eqb_refl. cbn [rassert]. eexists. split; [reflexivity|]. apply nan_div. left. apply nan_opp, nan_vsum.
    assert (L1 : length (velemul t (map nln o)) = length t) by (unfold velemul; rewrite map2_len; [reflexivity|now rewrite map_length]).
    assert (L2 : length (velemul (map (fun x => nadd (nopp x) nonev) t) (map nln (map (fun x => nadd (nopp x) nonev) o))) = length t)
      by (unfold velemul; rewrite map2_len; [now rewrite map_length|now rewrite !map_length]).
    apply (nan_map2 nadd _ _ i); [apply nan_add|lia|lia|]. left. unfold velemul.
    rewrite map2_nth with (da := nzero) (db := nzero) by (rewrite ?map_length; lia). apply nan_mul. destruct H as [H|H]; [right|now left].
    rewrite (nth_indep _ _ (nln nzero)) by (rewrite map_length; lia). rewrite (map_nth nln). now apply LN.
  Qed.
  Lemma log_grad_nan (X : matrix B64) y : mwf X -> length y = nrows X -> tainted X y ->
    forall p, length p = mcols X -> exists c g, log_compute_grad X y p = Ok (c, g) /\ nnan c = true /\ all_nan g /\ length g = mcols X.
  Proof.
    intros W Ly T p Lp. destruct (out_nan X y p W Lp Ly T) as (i & Hi & H). unfold log_compute_grad, rmat_vec. rewrite Lp, Nat.eqb_refl. cbn [rassert rbind].
    assert (Lo : length (map sigmoid (mat_vec X p)) = nrows X) by (unfold mat_vec; now rewrite !map_length).
    assert (H' : nnan (nth i (map sigmoid (mat_vec X p)) nzero) = true \/ nnan (nth i y nzero) = true).
    { destruct H as [H|H]; [left|now right]. rewrite (nth_indep _ _ (sigmoid nzero)) by lia. rewrite (map_nth sigmoid). now apply sigmoid_nan. }
    destruct (ce_nan (map sigmoid (mat_vec X p)) y i (eq_trans Lo (eq_sym Ly)) ltac:(lia) H') as (c & -> & Hc). cbn [rbind].
    unfold rvsub. rewrite Lo, Ly, Nat.eqb_refl. cbn [rassert rbind].
    assert (Lv : length (vsub (map sigmoid (mat_vec X p)) y) = nrows X) by (unfold vsub; rewrite map2_len; [exact Lo|exact (eq_trans Lo (eq_sym Ly))]).
    change (mcols (transpose X)) with (nrows X). rewrite Lv, Nat.eqb_refl. cbn [rassert rbind]. exists c. eexists. split; [reflexivity|]. split; [exact Hc|].
    apply (grad_nan X _ i Hi Lv). unfold vsub. rewrite map2_nth with (da := nzero) (db := nzero) by lia. now apply nan_sub.
  Qed.
  Theorem log_nan (gd : GradientDesc B64) (self : LogisticRegressor B64) (X : matrix B64) y : gd_iters gd <> 0 -> mwf X -> length y = nrows X -> tainted X y ->
    exists w, log_train (gd_optimize gd) self X y = ({| log_parameters := Some w |}, Ok tt) /\ length w = S (mcols X) /\ all_nan w.
  Proof.
    intros Hn W Ly T. unfold log_train, gd_optimize. destruct (gd_iters gd) as [|n]; [easy|].
    assert (Ln : nrows (with_ones X) = nrows X) by (unfold nrows, with_ones; cbn; apply map_length).
    destruct (gd_nan (gd_alpha gd) (log_compute_grad (with_ones X) y) (mcols (with_ones X)) (log_grad_nan _ _ (ones_wf X W) (eq_trans Ly (eq_sym Ln)) (ones_taint X y T)) n
      (repeat (ndiv nonev (nadd nonev nonev)) (mcols (with_ones X))) nzero (repeat_length _ _)) as (q & -> & Hq & Lq).
    exists q. split; [reflexivity|]. split; [exact Lq|exact Hq].
  Qed.
  Theorem log_nan_predict w (Z : matrix B64) : all_nan w -> length w = S (mcols Z) ->
    exists o, log_predict {| log_parameters := Some w |} Z = Ok o /\ length o = nrows Z /\ all_nan o.
  Proof.
    intros H L. destruct (pred_nan Z w H L) as (o & E & Ho & Lo). exists (map sigmoid o). cbn [log_predict log_parameters]. rewrite E. cbn [rbind]. split; [reflexivity|].
    split; [now rewrite map_length|]. apply Forall_forall. intros x Hx. apply in_map_iff in Hx. destruct Hx as (z & <- & Hz). apply sigmoid_nan. unfold all_nan in Ho. rewrite Forall_forall in Ho. auto.
  Qed.
End Logistic.
