(** Gradient-trained regressors under rotations and reorderings of the features. *)
From Coq Require Import List Arith Lia Bool Reals Lra Permutation.
From Verif Require Import Base BaseLemmas Num NumFn Linalg LinalgR Spec_Calc CalcR MatR Proof_KMeans Model_Cost Model_Toolkit Proof_Toolkit Model_Optim Model_CG
  Model_Regression Spec_Regression Proof_Regression Proof_Regression2 Proof_GLM2 Proof_Converge2 Spec_KNN Spec_DBSCAN2 Spec_KerInv Proof_KerInv Spec_OptEq Proof_OptEq.
Import ListNotations.
Local Open Scope R_scope.

Definition lifted (T : list R -> list R) (v : list R) : list R := match v with [] => [] | o :: x => o :: T x end.
Lemma lifted_rigid n n' T : rigid n n' T -> rigid (S n) (S n') (lifted T).
Proof.
  intros HT a b La Lb. destruct a as [|o a], b as [|o' b]; try discriminate. cbn [lifted length] in *. injection La as La. injection Lb as Lb.
  split; [now rewrite (rig_len n n' T HT)|].
  rewrite <- (dot_inner (S n')) by (cbn; rewrite (rig_len n n' T HT); auto). rewrite <- (dot_inner (S n)) by (cbn; auto).
  rewrite !dot_cons, (rig_dot n n' T HT); auto.
Qed.
Lemma ones_lifted n' T (X : matrix R) : with_ones (map_rows n' T X) = map_rows (S n') (lifted T) (with_ones X).
Proof. unfold with_ones, map_rows. cbn [mrows mcols]. f_equal. rewrite !map_map. reflexivity. Qed.

Section Carry.
  Variables (n n' : nat) (U : list R -> list R) (Z : matrix R).
  Hypothesis HU : rigid n n' U.
  Hypothesis W : mwf Z.
  Hypothesis Hn : mcols Z = n.
  Let Z' := map_rows n' U Z.
  Lemma carry_wf : mwf Z'.
  Proof.
    unfold Z', map_rows, mwf. cbn [mrows mcols]. apply Forall_map, Forall_forall. intros r Hr. apply (rig_len n n' U HU).
    rewrite <- Hn. unfold mwf in W. rewrite Forall_forall in W. auto.
  Qed.
  Lemma carry_nrows : nrows Z' = nrows Z.
  Proof. apply map_length. Qed.
  Lemma carry_vec p : length p = n -> mat_vec Z' (U p) = mat_vec Z p.
  Proof.
    intros Lp. unfold mat_vec, Z', map_rows. cbn [mrows]. rewrite map_map. apply map_ext_in. intros r Hr. apply (rig_dot n n' U HU); auto.
    rewrite <- Hn. unfold mwf in W. rewrite Forall_forall in W. auto.
  Qed.
  Lemma carry_grad r : length r = nrows Z -> mat_vec (transpose Z') r = U (mat_vec (transpose Z) r).
  Proof.
    intros Lr. set (g := mat_vec (transpose Z) r). set (g' := mat_vec (transpose Z') r).
    assert (Lg : length g = n) by (unfold g; rewrite mat_vec_length', transpose_nrows; auto).
    assert (Lg' : length g' = n') by (unfold g'; rewrite mat_vec_length', transpose_nrows; reflexivity).
    pose proof carry_wf as W'. pose proof (rig_len n n' U HU) as RL.
    assert (A : forall x, length x = n -> dot g' (U x) = dot g x).
    { intros x Lx. unfold g', g. rewrite <- !dot_transpose by (rewrite ?carry_nrows; auto; try (rewrite RL; auto); lia). now rewrite carry_vec. }
    assert (B : mat_vec Z' g' = mat_vec Z g).
    { unfold mat_vec. unfold Z' at 1, map_rows. cbn [mrows]. rewrite map_map. apply map_ext_in. intros x Hx.
      rewrite (dot_comm (U x)), (dot_comm x). apply A. rewrite <- Hn. unfold mwf in W. rewrite Forall_forall in W. auto. }
    apply (zero_dot n'); auto. rewrite (dist_inner n') by auto. rewrite <- !dot_inner by auto.
    rewrite A, (rig_dot n n' U HU) by auto.
    assert (C : dot g' g' = dot g g).
    { unfold g' at 1. rewrite <- dot_transpose by (rewrite ?carry_nrows; auto). rewrite B. unfold g at 2. rewrite dot_transpose by (auto; lia). reflexivity. }
    rewrite C. ring.
  Qed.
  Lemma lr_carried y : length y = nrows Z -> carried n U (lr_compute_grad Z y) (lr_compute_grad Z' y).
  Proof.
    intros Ly w Lw. rewrite !lr_compute_grad_R by (rewrite ?carry_nrows; auto using carry_wf; try lia; apply (rig_len n n' U HU); auto).
    unfold ls_cost, ls_grad. rewrite carry_vec, carry_nrows by auto.
    assert (Lr : length (vsub (mat_vec Z w) y) = nrows Z) by (unfold vsub; rewrite map2_length, mat_vec_length'; lia).
    rewrite carry_grad by auto. eexists _, _. split; [reflexivity|]. split; [rewrite map_length, mat_vec_length', transpose_nrows; auto|].
    do 2 f_equal. symmetry. apply (rig_div n n' U HU). rewrite mat_vec_length', transpose_nrows; auto.
  Qed.
  Lemma log_carried y : length y = nrows Z -> carried n U (log_compute_grad Z y) (log_compute_grad Z' y).
  Proof.
    intros Ly w Lw. rewrite !log_compute_grad_R by (rewrite ?carry_nrows; auto using carry_wf; try lia; apply (rig_len n n' U HU); auto).
    unfold lg_cost, lg_grad. rewrite carry_vec, carry_nrows by auto.
    assert (Lr : length (vsub (map sigmoid (mat_vec Z w)) y) = nrows Z) by (unfold vsub; rewrite map2_length, map_length, mat_vec_length'; lia).
    rewrite carry_grad by auto. eexists _, _. split; [reflexivity|]. split; [rewrite map_length, mat_vec_length', transpose_nrows; auto|].
    do 2 f_equal. symmetry. apply (rig_div n n' U HU). rewrite mat_vec_length', transpose_nrows; auto.
  Qed.
  Lemma carry_rmat_vec p : length p = n -> rmat_vec Z' (U p) = rmat_vec Z p.
  Proof. intros Lp. unfold rmat_vec, rassert. rewrite (rig_len n n' U HU), carry_vec, Hn, Lp by auto. change (mcols Z') with n'. now rewrite !Nat.eqb_refl. Qed.
End Carry.

Lemma ones_mcols (X : matrix R) : mcols (with_ones X) = S (mcols X).
Proof. reflexivity. Qed.
Theorem lin_rigid (s s' : LinRegressor R) X y Z n' T : mwf X -> mwf Z -> mcols Z = mcols X -> length y = nrows X -> (0 < nrows X)%nat -> rigid (mcols X) n' T ->
  exists m m' out, lr_train_with_optimization s X y = (m, Ok tt) /\ lr_train_with_optimization s' (map_rows n' T X) y = (m', Ok tt) /\
    lr_predict m Z = Ok out /\ lr_predict m' (map_rows n' T Z) = Ok out.
Proof.
  intros W WZ EZ Ly _ HT. pose proof (lifted_rigid _ _ _ HT) as HU. pose proof (with_ones_wf X W) as WX.
  assert (Hc : carried (S (mcols X)) (lifted T) (lr_compute_grad (with_ones X) y) (lr_compute_grad (with_ones (map_rows n' T X)) y)).
  { rewrite ones_lifted. apply (lr_carried (S (mcols X)) (S n')); auto. rewrite with_ones_nrows. exact Ly. }
  unfold lr_train_with_optimization. change (mcols (with_ones X)) with (S (mcols X)). change (mcols (with_ones (map_rows n' T X))) with (S n').
  change (@nzero R NumR) with 0. rewrite <- (rig_zero _ _ _ HU).
  destruct (gd_rigid _ _ _ HU _ _ Hc (@gd_default R NumR) (repeat 0 (S (mcols X))) (repeat_length _ _)) as (w & E & Lw & E'). rewrite E, E'.
  eexists _, _, (mat_vec (with_ones Z) w). split; [reflexivity|]. split; [reflexivity|]. unfold lr_predict. cbn [lr_parameters].
  rewrite ones_lifted, (carry_rmat_vec (S (mcols X)) (S n') (lifted T) (with_ones Z) HU (with_ones_wf Z WZ)) by (auto; cbn; lia).
  assert (K : rmat_vec (with_ones Z) w = Ok (mat_vec (with_ones Z) w)) by (unfold rmat_vec, rassert; rewrite ones_mcols, EZ, Lw, Nat.eqb_refl; reflexivity).
  auto.
Qed.
Theorem log_rigid opt (s s' : LogisticRegressor R) X y Z n' T : mwf X -> mwf Z -> mcols Z = mcols X -> length y = nrows X -> (0 < nrows X)%nat -> rigid (mcols X) n' T ->
  T (repeat (1 / 2) (mcols X)) = repeat (1 / 2) n' -> (exists gd, opt = gd_optimize gd) \/ (exists c, opt = cg_optimize c) ->
  exists m m' r, log_train opt s X y = (m, r) /\ log_train opt s' (map_rows n' T X) y = (m', r) /\
    (r = Ok tt -> exists out, log_predict m Z = Ok out /\ log_predict m' (map_rows n' T Z) = Ok out).
Proof.
  intros W WZ EZ Ly _ HT H2 Hopt. pose proof (lifted_rigid _ _ _ HT) as HU. pose proof (with_ones_wf X W) as WX.
  assert (Hc : carried (S (mcols X)) (lifted T) (log_compute_grad (with_ones X) y) (log_compute_grad (with_ones (map_rows n' T X)) y)).
  { rewrite ones_lifted. apply (log_carried (S (mcols X)) (S n')); auto. rewrite with_ones_nrows. exact Ly. }
  unfold log_train. change (mcols (with_ones X)) with (S (mcols X)). change (mcols (with_ones (map_rows n' T X))) with (S n').
  change (@nonev R NumR / (@nonev R NumR + @nonev R NumR))%num with (1 / (1 + 1)). replace (1 + 1) with 2 by ring.
  assert (ES : repeat (1 / 2) (S n') = lifted T (repeat (1 / 2) (S (mcols X)))) by (cbn [repeat lifted]; now rewrite H2). rewrite ES.
  set (st := repeat (1 / 2) (S (mcols X))). assert (Lst : length st = S (mcols X)) by apply repeat_length.
  assert (K : opt (log_compute_grad (with_ones (map_rows n' T X)) y) (lifted T st) = (let? w := opt (log_compute_grad (with_ones X) y) st in Ok (lifted T w)) /\
     forall w, opt (log_compute_grad (with_ones X) y) st = Ok w -> length w = S (mcols X)).
  { destruct Hopt as [(gd & ->)|(c & ->)].
    - destruct (gd_rigid _ _ _ HU _ _ Hc gd st Lst) as (w & E & Lw & E'). rewrite E, E'. split; [reflexivity|]. intros w' Q. injection Q as <-. exact Lw.
    - apply (cg_rigid _ _ _ HU _ _ Hc c st Lst). }
  destruct K as (E & Lw). rewrite E. destruct (opt _ st) as [w|e|]; cbn [rbind].
  - eexists _, _, (Ok tt). split; [reflexivity|]. split; [reflexivity|]. intros _. unfold log_predict. cbn [log_parameters].
    specialize (Lw w eq_refl).
    rewrite ones_lifted, (carry_rmat_vec (S (mcols X)) (S n') (lifted T) (with_ones Z) HU (with_ones_wf Z WZ)) by (auto; cbn; lia).
    assert (K : rmat_vec (with_ones Z) w = Ok (mat_vec (with_ones Z) w)) by (unfold rmat_vec, rassert; rewrite ones_mcols, EZ, Lw, Nat.eqb_refl; reflexivity).
    rewrite K. cbn [rbind]. eauto.
  - eexists _, _, (Err e). split; [reflexivity|]. split; [reflexivity|]. discriminate.
  - eexists _, _, Panic. split; [reflexivity|]. split; [reflexivity|]. discriminate.
Qed.
Lemma arrange_half n pi : Permutation pi (seq 0 n) -> arrange pi (repeat (1 / 2) n) = repeat (1 / 2) n.
Proof.
  intros H. assert (L : length pi = n) by (rewrite (Permutation_length H), seq_length; auto).
  transitivity (repeat (1 / 2) (length pi)); [|now rewrite L]. pose proof (arr_in n pi H) as I. clear H L. unfold arrange.
  induction pi as [|k l IH]; [reflexivity|]. cbn [map length repeat]. f_equal; [apply nth_repeat_lt, I; now left|]. apply IH. intros j Hj. apply I. now right.
Qed.
