(** Lemmas for [Props_Regression]. *)
From Coq Require Import List Arith Lia Bool Reals Lra.
From Verif Require Import Base BaseLemmas Num NumFn Linalg LinalgR Spec_Calc CalcR MatR Proof_KMeans Model_Cost Proof_Cost
  Model_Toolkit Proof_Toolkit Model_Optim Spec_Optim Proof_Optim Proof_Optim2 Model_Regression Spec_Regression.
Import ListNotations.
Local Open Scope R_scope.

Section Gen.
  Context {F : Type} {N : Num F}.
  Lemma with_ones_wf (X : matrix F) : mwf X -> mwf (with_ones X).
  Proof.
    intros W. apply Forall_forall. intros r Hr. cbn in Hr. apply in_map_iff in Hr. destruct Hr as (x & <- & Hx).
    unfold mwf in W. rewrite Forall_forall in W. cbn. f_equal. auto.
  Qed.
  Lemma with_ones_nrows (X : matrix F) : nrows (with_ones X) = nrows X.
  Proof. apply map_length. Qed.
  Lemma rmat_vec_Ok (m : matrix F) v r : rmat_vec m v = Ok r -> mcols m = length v /\ r = mat_vec m v.
  Proof. unfold rmat_vec, rassert. destruct (Nat.eqb_spec (mcols m) (length v)); [|discriminate]. intros H. apply Ok_inj in H. auto. Qed.
  Lemma rmat_vec_eq (m : matrix F) v : length v = mcols m -> rmat_vec m v = Ok (mat_vec m v).
  Proof. intros H. unfold rmat_vec, rassert. rewrite H, Nat.eqb_refl. reflexivity. Qed.
End Gen.

Lemma dot_affine p x : length p = S (length x) -> dot (1 :: x) p = affine p x.
Proof.
  destruct p as [|p0 p]; [discriminate|]. intros H. rewrite dot_cons. unfold affine. cbn [nth].
  rewrite (dot_sumR (length x)) by (cbn in H; lia). f_equal; [lra|]. apply sumR_ext. intros. ring.
Qed.
Lemma mat_vec_ones (X : matrix R) p : mwf X -> length p = S (mcols X) -> mat_vec (with_ones X) p = map (affine p) (mrows X).
Proof.
  intros W L. unfold mat_vec, with_ones. cbn [mrows]. rewrite map_map. apply map_ext_in. intros x Hx.
  apply dot_affine. unfold mwf in W. rewrite Forall_forall in W. rewrite (W x Hx). exact L.
Qed.

Lemma rss_dot (X : matrix R) y p : mwf X -> length y = nrows X -> length p = S (mcols X) ->
  rss X y p = dot (vsub y (mat_vec (with_ones X) p)) (vsub y (mat_vec (with_ones X) p)).
Proof.
  intros W Ly Lp. rewrite mat_vec_ones by auto.
  assert (Lv : length (vsub y (map (affine p) (mrows X))) = nrows X) by (rewrite vsub_len'; rewrite ?map_length; auto).
  rewrite (dot_sumR (nrows X)) by auto. apply sumR_ext. intros i Hi.
  unfold vsub. rewrite (map2_nth nsub _ _ i 0 0 0) by (rewrite ?map_length; unfold nrows in *; lia).
  rewrite (nth_map (affine p) _ _ _ []) by exact Hi. cbn [nsub NumR]. ring.
Qed.

(** Least squares from the normal equations. *)
Lemma normal_eq_ls (Z : matrix R) y p : mwf Z -> length y = nrows Z -> length p = mcols Z ->
  mat_vec (transpose Z) (mat_vec Z p) = mat_vec (transpose Z) y ->
  forall q, length q = mcols Z ->
  dot (vsub y (mat_vec Z p)) (vsub y (mat_vec Z p)) <= dot (vsub y (mat_vec Z q)) (vsub y (mat_vec Z q)).
Proof.
  intros W Ly Lp E q Lq. set (r := vsub y (mat_vec Z p)).
  assert (Lr : length r = nrows Z) by (unfold r; rewrite vsub_len'; rewrite ?mat_vec_length'; auto).
  set (d := vsub p q). assert (Ld : length d = mcols Z) by (unfold d; rewrite vsub_len'; lia).
  assert (Es : vsub y (mat_vec Z q) = vadd r (mat_vec Z d)).
  { unfold r, d. rewrite mat_vec_vsub by lia. symmetry. apply vsub_vsub_vadd; rewrite ?mat_vec_length'; auto. }
  rewrite Es. assert (Lz : length (mat_vec Z d) = nrows Z) by apply mat_vec_length'.
  rewrite dot_vadd_l by lia. rewrite !(dot_comm _ (vadd r (mat_vec Z d))), !dot_vadd_l by lia.
  rewrite (dot_comm (mat_vec Z d) r), (dot_transpose Z r d W Lr Ld).
  assert (Z0 : dot (mat_vec (transpose Z) r) d = 0).
  { unfold r. rewrite mat_vec_vsub by (rewrite mat_vec_length'; auto). rewrite E.
    apply dot_zeros_l. apply Forall_forall. intros x Hx. unfold vsub in Hx.
    clear -Hx. induction (mat_vec (transpose Z) y) as [|a l IH]; [contradiction|]. cbn in Hx. destruct Hx as [<-|Hx]; [lra|auto]. }
  rewrite Z0. pose proof (dot_ge0 (mat_vec Z d)). lra.
Qed.

Theorem lr_train_ls solve self X y self' : solver_sound solve -> mwf X -> lr_train solve self X y = (self', Ok tt) ->
  length y = nrows X /\
  exists p, lr_parameters self' = Some p /\ length p = S (mcols X) /\ forall q, length q = S (mcols X) -> rss X y p <= rss X y q.
Proof.
  intros Hs W H. unfold lr_train in H.
  destruct (let? b := rmat_vec _ _ in _) as [v| |] eqn:E; inversion H; subst self'. clear H.
  apply rbind_Ok_inv in E. destruct E as (b & Hb & E). apply rmat_vec_Ok in Hb. destruct Hb as (Ly & ->).
  rewrite transpose_mcols, with_ones_nrows in Ly. split; [auto|].
  apply Hs in E. destruct E as (Lv & E). cbn [mcols mat_mul with_ones] in Lv.
  exists v. split; [reflexivity|]. split; [exact Lv|]. intros q Lq. rewrite !rss_dot by auto.
  pose proof (with_ones_wf X W) as WZ.
  apply normal_eq_ls; auto; [rewrite with_ones_nrows; auto|].
  rewrite <- E. symmetry. apply mat_vec_mul; auto. apply transpose_wf.
Qed.

Theorem lr_train_err {F} {N : Num F} solve (self : LinRegressor F) X y self' r : lr_train solve self X y = (self', r) -> r <> Ok tt -> self' = self.
Proof.
  unfold lr_train. destruct (let? b := rmat_vec _ _ in _); intros H K; inversion H; subst; auto. congruence.
Qed.

Theorem lr_predict_affine self p X : lr_parameters self = Some p -> mwf X ->
  lr_predict self X = if (length p =? S (mcols X))%nat then Ok (map (affine p) (mrows X)) else Panic.
Proof.
  intros E W. unfold lr_predict. rewrite E. unfold rmat_vec, rassert. cbn [mcols with_ones].
  rewrite Nat.eqb_sym. destruct (Nat.eqb_spec (length p) (S (mcols X))) as [L|]; [|reflexivity].
  rewrite mat_vec_ones by auto. reflexivity.
Qed.

(** Gradients. *)
Lemma dlim_eq f x d d' : d = d' -> derivable_pt_lim f x d -> derivable_pt_lim f x d'.
Proof. intros ->. auto. Qed.
Definition lin (X : matrix R) (i : nat) (p : list R) : R := sumR (mcols X) (fun k => entry X i k * nth k p 0).
Lemma lin_deriv X i p j : length p = mcols X -> (j < mcols X)%nat ->
  derivable_pt_lim (fun x => lin X i (vset p j x)) (nth j p 0) (entry X i j).
Proof.
  intros L Hj.
  apply (dlim_ext (fun x => lin X i p + entry X i j * (x - nth j p 0))).
  { intros x. unfold lin. rewrite (sum_vset (mcols X)) by auto. reflexivity. }
  apply (dlim_eq _ _ (0 + entry X i j * (1 - 0))); [ring|].
  apply (derivable_pt_lim_plus (fun _ => lin X i p) (fun x => entry X i j * (x - nth j p 0))); [apply derivable_pt_lim_const|].
  apply (derivable_pt_lim_scal (fun x => x - nth j p 0)).
  apply (derivable_pt_lim_minus id (fun _ => nth j p 0)); [apply derivable_pt_lim_id|apply derivable_pt_lim_const].
Qed.

Lemma mat_vec_lin X p i : mwf X -> length p = mcols X -> (i < nrows X)%nat -> nth i (mat_vec X p) 0 = lin X i p.
Proof. intros. apply mat_vec_nth; auto. Qed.

Lemma mse_vec_sum o t n : length o = n -> length t = n ->
  mse_cost_vec o t = Ok (sumR n (fun i => (nth i o 0 - nth i t 0) ^ 2) / (2 * INR n)).
Proof.
  intros Lo Lt. unfold mse_cost_vec, rassert. rewrite Lo, Lt, Nat.eqb_refl. f_equal.
  rewrite vsub_len' by lia. rewrite Lo.
  replace (vsum (velemul (vsub o t) (vsub o t))) with (sumR n (fun i => (nth i o 0 - nth i t 0) ^ 2)).
  { cbn [ndiv nmul nadd nonev nofnat NumR]. replace (1 + 1) with 2 by ring. reflexivity. }
  rewrite vsum_R. change (rsum (velemul (vsub o t) (vsub o t))) with (rsum (map2 Rmult (vsub o t) (vsub o t))).
  rewrite (rsum_map2_nth Rmult _ _ n) by (rewrite vsub_len'; lia). apply sumR_ext. intros i Hi.
  unfold vsub. rewrite (map2_nth nsub _ _ i 0 0 0) by lia. cbn [nsub NumR]. ring.
Qed.

Lemma grad_entry X d j : mwf X -> length d = nrows X -> (j < mcols X)%nat ->
  nth j (map (fun x => x / INR (nrows X)) (mat_vec (transpose X) d)) 0 = sumR (nrows X) (fun i => entry X i j * nth i d 0) / INR (nrows X).
Proof.
  intros W L Hj. rewrite (nth_map (fun x => x / INR (nrows X)) _ _ _ 0) by (rewrite mat_vec_length', transpose_nrows; auto).
  f_equal. rewrite mat_vec_nth; [|apply transpose_wf|exact L|rewrite transpose_nrows; exact Hj].
  rewrite transpose_mcols. apply sumR_ext. intros i Hi. rewrite transpose_entry by auto. reflexivity.
Qed.

Theorem lr_grad X y p j : mwf X -> length y = nrows X -> length p = mcols X -> (0 < nrows X)%nat -> (j < mcols X)%nat ->
  exists c g, lr_compute_grad X y p = Ok (c, g) /\ length g = length p /\
    has_partial_vec (fun q => cost_of (lr_compute_grad X y q)) p j (nth j g 0).
Proof.
  intros W Ly Lp Hn Hj.
  assert (R : forall q, length q = mcols X -> lr_compute_grad X y q =
     Ok (sumR (nrows X) (fun i => (lin X i q - nth i y 0) ^ 2) / (2 * INR (nrows X)),
         map (fun x => x / INR (nrows X)) (mat_vec (transpose X) (vsub (mat_vec X q) y)))).
  { intros q Lq. unfold lr_compute_grad. rewrite rmat_vec_eq by auto. cbn [rbind].
    rewrite (mse_vec_sum _ _ (nrows X)) by (rewrite ?mat_vec_length'; auto). cbn [rbind].
    rewrite rvsub_eq by (rewrite mat_vec_length'; auto). cbn [rbind].
    rewrite rmat_vec_eq by (rewrite vsub_len'; rewrite mat_vec_length'; auto). cbn [rbind]. f_equal. f_equal.
    f_equal. apply sumR_ext. intros i Hi. rewrite mat_vec_lin by auto. reflexivity. }
  rewrite (R p Lp). do 2 eexists. split; [reflexivity|]. split.
  { rewrite map_length, mat_vec_length', transpose_nrows. auto. }
  rewrite grad_entry by (auto; rewrite vsub_len'; rewrite mat_vec_length'; auto).
  exists (fun x => sumR (nrows X) (fun i => (lin X i (vset p j x) - nth i y 0) ^ 2) / (2 * INR (nrows X))). split.
  { intros x. rewrite (R (vset p j x)) by (rewrite vset_length; auto). reflexivity. }
  assert (Hn' : INR (nrows X) <> 0) by (apply not_0_INR; lia).
  replace (sumR (nrows X) (fun i => entry X i j * nth i (vsub (mat_vec X p) y) 0) / INR (nrows X))
    with (/ (2 * INR (nrows X)) * sumR (nrows X) (fun i => 2 * (lin X i p - nth i y 0) * entry X i j)).
  2:{ rewrite (sumR_ext (nrows X) (fun i => 2 * (lin X i p - nth i y 0) * entry X i j) (fun i => 2 * (entry X i j * nth i (vsub (mat_vec X p) y) 0))).
      - rewrite sumR_scal. field. auto.
      - intros i Hi. unfold vsub. rewrite (map2_nth nsub _ _ i 0 0 0) by (rewrite ?mat_vec_length'; lia).
        rewrite mat_vec_lin by auto. cbn [nsub NumR]. ring. }
  apply (dlim_ext (fun x => / (2 * INR (nrows X)) * sumR (nrows X) (fun i => (lin X i (vset p j x) - nth i y 0) ^ 2))).
  { intros x. unfold Rdiv. ring. }
  apply (derivable_pt_lim_scal (fun x => sumR (nrows X) (fun i => (lin X i (vset p j x) - nth i y 0) ^ 2))).
  apply deriv_sumR. intros i Hi.
  pose proof (lin_deriv X i p j Lp Hj) as D.
  pose proof (derivable_pt_lim_comp (fun x => lin X i (vset p j x)) (fun z => (z - nth i y 0) ^ 2) (nth j p 0)
    (entry X i j) (2 * (lin X i p - nth i y 0)) D) as K. cbv beta in K. rewrite vset_self in K. apply K.
  apply (dlim_ext (fun z => (z - nth i y 0) * (z - nth i y 0))); [intros; ring|].
  replace (2 * (lin X i p - nth i y 0)) with ((1 - 0) * (lin X i p - nth i y 0) + (lin X i p - nth i y 0) * (1 - 0)) by ring.
  assert (D1 : derivable_pt_lim (fun z => z - nth i y 0) (lin X i p) (1 - 0)).
  { apply (derivable_pt_lim_minus id (fun _ => nth i y 0)); [apply derivable_pt_lim_id|apply derivable_pt_lim_const]. }
  apply (derivable_pt_lim_mult _ _ _ _ _ D1 D1).
Qed.

(** Logistic regression. *)
Lemma ce_vec_sum o t n : length o = n -> length t = n ->
  ce_cost_vec o t = Ok (- sumR n (fun i => ce_entry (nth i o 0) (nth i t 0)) / INR n).
Proof.
  intros Lo Lt. unfold ce_cost_vec, rassert. rewrite Lo, Lt, Nat.eqb_refl. f_equal.
  cbn [ndiv nopp nofnat NumR]. f_equal. f_equal. rewrite vsum_R.
  unfold vadd, velemul.
  match goal with |- rsum (map2 nadd ?a ?b) = _ => change (rsum (map2 Rplus a b) = sumR n (fun i => ce_entry (nth i o 0) (nth i t 0))); set (A := a); set (B := b) end.
  assert (LA : length A = n) by (unfold A; rewrite map2_length, ?map_length; lia).
  assert (LB : length B = n) by (unfold B; rewrite map2_length, ?map_length; lia).
  rewrite (rsum_map2_nth Rplus _ _ n) by auto. apply sumR_ext. intros i Hi.
  unfold A, B. rewrite !(map2_nth nmul _ _ i 0 0 0) by (rewrite ?map_length; lia).
  rewrite map_map. rewrite (nth_map nln _ _ _ 0) by lia.
  rewrite (nth_map (fun x => nadd (Ropp x) nonev) _ _ _ 0) by lia.
  rewrite (nth_map (fun x => nln (nadd (Ropp x) nonev)) _ _ _ 0) by lia.
  unfold ce_entry. cbn [nmul nadd nopp nonev NumR nln NumFnR].
  replace (- nth i t 0 + 1) with (1 - nth i t 0) by ring. replace (- nth i o 0 + 1) with (1 - nth i o 0) by ring. reflexivity.
Qed.

Theorem log_grad X y p j : mwf X -> length y = nrows X -> length p = mcols X -> (0 < nrows X)%nat -> (j < mcols X)%nat ->
  exists c g, log_compute_grad X y p = Ok (c, g) /\ length g = length p /\
    has_partial_vec (fun q => cost_of (log_compute_grad X y q)) p j (nth j g 0).
Proof.
  intros W Ly Lp Hn Hj.
  assert (R : forall q, length q = mcols X -> log_compute_grad X y q =
     Ok (- sumR (nrows X) (fun i => ce_entry (sigmoid (lin X i q)) (nth i y 0)) / INR (nrows X),
         map (fun x => x / INR (nrows X)) (mat_vec (transpose X) (vsub (map sigmoid (mat_vec X q)) y)))).
  { intros q Lq. unfold log_compute_grad. rewrite rmat_vec_eq by auto. cbn [rbind].
    rewrite (ce_vec_sum _ _ (nrows X)) by (rewrite ?map_length, ?mat_vec_length'; auto). cbn [rbind].
    rewrite rvsub_eq by (rewrite map_length, mat_vec_length'; auto). cbn [rbind].
    rewrite rmat_vec_eq by (rewrite vsub_len'; rewrite map_length, mat_vec_length'; auto). cbn [rbind]. f_equal. f_equal.
    f_equal. f_equal. apply sumR_ext. intros i Hi. rewrite (nth_map sigmoid _ _ _ 0) by (rewrite mat_vec_length'; auto).
    rewrite mat_vec_lin by auto. reflexivity. }
  rewrite (R p Lp). do 2 eexists. split; [reflexivity|]. split.
  { rewrite map_length, mat_vec_length', transpose_nrows. auto. }
  rewrite grad_entry by (auto; rewrite vsub_len'; rewrite map_length, mat_vec_length'; auto).
  exists (fun x => - sumR (nrows X) (fun i => ce_entry (sigmoid (lin X i (vset p j x))) (nth i y 0)) / INR (nrows X)). split.
  { intros x. rewrite (R (vset p j x)) by (rewrite vset_length; auto). reflexivity. }
  assert (Hn' : INR (nrows X) <> 0) by (apply not_0_INR; lia).
  replace (sumR (nrows X) (fun i => entry X i j * nth i (vsub (map sigmoid (mat_vec X p)) y) 0) / INR (nrows X))
    with (- / INR (nrows X) * sumR (nrows X) (fun i => (nth i y 0 - sigmoid (lin X i p)) * entry X i j)).
  2:{ rewrite (sumR_ext (nrows X) (fun i => (nth i y 0 - sigmoid (lin X i p)) * entry X i j)
        (fun i => (-1) * (entry X i j * nth i (vsub (map sigmoid (mat_vec X p)) y) 0))).
      - rewrite sumR_scal. field. auto.
      - intros i Hi. unfold vsub. rewrite (map2_nth nsub _ _ i 0 0 0) by (rewrite ?map_length, ?mat_vec_length'; lia).
        rewrite (nth_map sigmoid _ _ _ 0) by (rewrite mat_vec_length'; auto).
        rewrite mat_vec_lin by auto. cbn [nsub NumR]. ring. }
  apply (dlim_ext (fun x => - / INR (nrows X) * sumR (nrows X) (fun i => ce_entry (sigmoid (lin X i (vset p j x))) (nth i y 0)))).
  { intros x. unfold Rdiv. ring. }
  apply (derivable_pt_lim_scal (fun x => sumR (nrows X) (fun i => ce_entry (sigmoid (lin X i (vset p j x))) (nth i y 0)))).
  apply deriv_sumR. intros i Hi.
  pose proof (lin_deriv X i p j Lp Hj) as D.
  pose proof (sigmoid_range (lin X i p)) as Rg.
  pose proof (derivable_pt_lim_comp (fun x => lin X i (vset p j x)) sigmoid (nth j p 0) (entry X i j)
    (sigmoid (lin X i p) * (1 - sigmoid (lin X i p))) D) as K1. cbv beta in K1. rewrite vset_self in K1.
  specialize (K1 (sigmoid_deriv _)).
  pose proof (derivable_pt_lim_comp _ (fun o => ce_entry o (nth i y 0)) _ _
    (nth i y 0 / sigmoid (lin X i p) - (1 - nth i y 0) / (1 - sigmoid (lin X i p))) K1) as K2.
  unfold comp in K2 at 1. cbv beta in K2. rewrite vset_self in K2. specialize (K2 (ce_entry_deriv _ _ Rg)).
  replace ((nth i y 0 - sigmoid (lin X i p)) * entry X i j) with
    ((nth i y 0 / sigmoid (lin X i p) - (1 - nth i y 0) / (1 - sigmoid (lin X i p))) *
     (sigmoid (lin X i p) * (1 - sigmoid (lin X i p)) * entry X i j)) by (field; lra).
  exact K2.
Qed.

Theorem log_predict_prob self p X : log_parameters self = Some p -> mwf X -> length p = S (mcols X) ->
  exists out, log_predict self X = Ok out /\ length out = nrows X /\
    (forall i, (i < nrows X)%nat -> 0 < nth i out 0 < 1) /\
    (forall i k, (i < nrows X)%nat -> (k < nrows X)%nat ->
       affine p (nth i (mrows X) []) < affine p (nth k (mrows X) []) -> nth i out 0 < nth k out 0).
Proof.
  intros E W L. unfold log_predict. rewrite E, rmat_vec_eq by (cbn; auto). cbn [rbind]. rewrite mat_vec_ones by auto.
  exists (map sigmoid (map (affine p) (mrows X))). split; [reflexivity|]. split; [rewrite !map_length; reflexivity|].
  assert (V : forall i, (i < nrows X)%nat -> nth i (map sigmoid (map (affine p) (mrows X))) 0 = sigmoid (affine p (nth i (mrows X) []))).
  { intros i Hi. rewrite map_map. rewrite (nth_map (fun x => sigmoid (affine p x)) _ _ _ []) by exact Hi. reflexivity. }
  split.
  - intros i Hi. rewrite V by auto. apply sigmoid_range.
  - intros i k Hi Hk H. rewrite !V by auto. apply sigmoid_incr. exact H.
Qed.
