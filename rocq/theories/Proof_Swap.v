(** Exchanging the two classes (C190, C191). *)
From Coq Require Import List Arith Lia Bool Reals Lra.
From Verif Require Import Base BaseLemmas Num NumFn Linalg LinalgR Spec_Calc CalcR MatR Proof_KMeans Model_Cost Model_Toolkit Proof_Toolkit Model_Optim Proof_Optim Proof_Optim2 Model_CG
  Model_Regression Spec_Regression Proof_Regression Proof_Regression2 Proof_GLM2 Proof_Converge2 Spec_KNN Spec_DBSCAN2 Spec_KerInv Proof_KerInv Spec_OptEq Proof_OptEq Proof_OptEq2 Proof_OptEqEx
  Spec_Overlap Spec_Swap.
Import ListNotations.
Local Open Scope R_scope.

Lemma sp_flip z : sp (- z) = sp z - z.
Proof.
  unfold sp. pose proof (exp_pos z). pose proof (exp_pos (- z)).
  assert (E : ln (1 + exp z) = ln ((1 + exp (- z)) * exp z)). { f_equal. rewrite Rmult_plus_distr_r, <- exp_plus. replace (- z + z) with 0 by ring. rewrite exp_0. ring. }
  rewrite E, ln_mult, ln_exp by lra. ring.
Qed.
Lemma sigmoid_flip (z : R) : sigmoid (- z) = 1 - sigmoid z.
Proof.
  rewrite !sigmoid_R. rewrite Ropp_involutive. pose proof (exp_pos z). rewrite exp_Ropp. field. split; lra.
Qed.
Lemma opp_len p : length (opposite p) = length p. Proof. apply map_length. Qed.
Lemma exch_len y : length (exchanged y) = length y. Proof. apply map_length. Qed.
Lemma opp_opp p : opposite (opposite p) = p.
Proof. unfold opposite. rewrite map_map. rewrite <- (map_id p) at 2. apply map_ext. intros. apply Ropp_involutive. Qed.
Lemma exch_exch y : exchanged (exchanged y) = y.
Proof. unfold exchanged. rewrite map_map. rewrite <- (map_id y) at 2. apply map_ext. intros. lra. Qed.
Lemma dot_opp a : forall b, dot a (opposite b) = - dot a b.
Proof.
  induction a as [|x a IH]; intros [|y b]; cbn [opposite map]; rewrite ?dot_nil_l, ?dot_nil_r; try (cbn; ring).
  fold (opposite b). rewrite !dot_cons, IH. ring.
Qed.
Lemma vec_opp (Z : matrix R) p : mat_vec Z (opposite p) = opposite (mat_vec Z p).
Proof. unfold mat_vec, opposite. rewrite map_map. apply map_ext. intros r. apply dot_opp. Qed.
Lemma nth_exch y i : (i < length y)%nat -> nth i (exchanged y) 0 = 1 - nth i y 0.
Proof. intros H. unfold exchanged. now rewrite (nth_map (fun t => 1 - t) _ _ _ 0) by auto. Qed.
Lemma nth_opp p i : (i < length p)%nat -> nth i (opposite p) 0 = - nth i p 0.
Proof. intros H. unfold opposite. now rewrite (nth_map Ropp _ _ _ 0) by auto. Qed.

Lemma lg_cost_swap Z y p : length y = nrows Z -> lg_cost Z (exchanged y) (opposite p) = lg_cost Z y p.
Proof.
  intros L. unfold lg_cost. f_equal. apply sumR_ext. intros i Hi. rewrite vec_opp, nth_opp by (rewrite mat_vec_length'; exact Hi). rewrite nth_exch, sp_flip by lia. ring.
Qed.
Lemma lg_grad_swap Z y p : length y = nrows Z -> lg_grad Z (exchanged y) (opposite p) = opposite (lg_grad Z y p).
Proof.
  intros L. unfold lg_grad. rewrite vec_opp.
  assert (E : vsub (map sigmoid (opposite (mat_vec Z p))) (exchanged y) = opposite (vsub (map sigmoid (mat_vec Z p)) y)).
  { apply (nth_ext _ _ 0 0). { rewrite opp_len, !vsub_len'; rewrite ?exch_len, !map_length, ?opp_len, ?mat_vec_length'; lia. }
    intros i Hi. rewrite vsub_len' in Hi by (rewrite exch_len, map_length, opp_len, mat_vec_length'; lia). rewrite map_length, opp_len, mat_vec_length' in Hi.
    rewrite nth_opp by (rewrite vsub_len'; rewrite map_length, mat_vec_length'; lia).
    unfold vsub. rewrite !(map2_nth nsub _ _ i 0 0 0) by (rewrite ?exch_len, ?map_length, ?opp_len, ?mat_vec_length'; lia).
    rewrite !(nth_map (sigmoid (F := R)) _ _ _ 0) by (rewrite ?opp_len, mat_vec_length'; lia).
    rewrite nth_opp, nth_exch, sigmoid_flip by (rewrite ?mat_vec_length'; lia). cbn [nsub NumR]. ring. }
  rewrite E, vec_opp. unfold opposite. rewrite !map_map. apply map_ext. intros x. unfold Rdiv. ring.
Qed.
Lemma swap_carried Z y : mwf Z -> length y = nrows Z -> carried (mcols Z) opposite (log_compute_grad Z y) (log_compute_grad Z (exchanged y)).
Proof.
  intros W L w Lw. exists (lg_cost Z y w), (lg_grad Z y w). split; [now apply log_compute_grad_R|]. split.
  - unfold lg_grad. rewrite map_length, mat_vec_length'. unfold nrows, transpose. cbn [mrows]. now rewrite map_length, seq_length.
  - rewrite log_compute_grad_R; auto; [|now rewrite exch_len|now rewrite opp_len]. now rewrite lg_cost_swap, lg_grad_swap.
Qed.
Theorem loss_swap X y p : mwf X -> length y = nrows X -> length p = S (mcols X) -> log_loss X (exchanged y) (opposite p) = log_loss X y p.
Proof.
  intros W L Lp. rewrite !log_loss_cost; auto; [|now rewrite exch_len|now rewrite opp_len]. apply lg_cost_swap. now rewrite with_ones_nrows.
Qed.
Theorem best_swap X y p : mwf X -> length y = nrows X -> (best_fit X (exchanged y) (opposite p) <-> best_fit X y p).
Proof.
  intros W L. assert (D : forall y p, length y = nrows X -> best_fit X y p -> best_fit X (exchanged y) (opposite p)).
  { clear y p L. intros y p L [Lp B]. split; [now rewrite opp_len|]. intros q Lq. rewrite loss_swap by auto.
    rewrite <- (opp_opp q), loss_swap; auto; [|now rewrite opp_len]. apply B. now rewrite opp_len. }
  split; intros H; [|now apply D]. apply D in H; [|now rewrite exch_len]. now rewrite exch_exch, opp_opp in H.
Qed.
Theorem descent_swap X y : mwf X -> length y = nrows X ->
  (forall self start, length start = S (mcols X) -> exists w, gd_optimize self (log_compute_grad (with_ones X) y) start = Ok w /\
     gd_optimize self (log_compute_grad (with_ones X) (exchanged y)) (opposite start) = Ok (opposite w)) /\
  (forall self start, length start = S (mcols X) -> cg_optimize self (log_compute_grad (with_ones X) (exchanged y)) (opposite start) =
     (let? w := cg_optimize self (log_compute_grad (with_ones X) y) start in Ok (opposite w))).
Proof.
  intros W L. assert (C : carried (S (mcols X)) opposite (log_compute_grad (with_ones X) y) (log_compute_grad (with_ones X) (exchanged y))).
  { apply (swap_carried (with_ones X)); [now apply with_ones_wf|now rewrite with_ones_nrows]. }
  split; intros self start Ls.
  - destruct (gd_rigid _ _ _ (mirror_rigid _) _ _ C self start Ls) as (w & E & _ & E'). exists w. split; [exact E|exact E'].
  - exact (proj1 (cg_rigid _ _ _ (mirror_rigid _) _ _ C self start Ls)).
Qed.
Theorem predict_swap (m m' : LogisticRegressor R) p Z : log_parameters m = Some p -> log_parameters m' = Some (opposite p) ->
  log_predict m' Z = (let? out := log_predict m Z in Ok (exchanged out)).
Proof.
  intros E E'. unfold log_predict. rewrite E, E'. unfold rmat_vec, rassert. rewrite opp_len. destruct (_ =? _)%nat; [|reflexivity]. cbn [rbind].
  rewrite vec_opp. unfold opposite, exchanged. rewrite !map_map. f_equal. apply map_ext. intros z. apply sigmoid_flip.
Qed.
