(** * Concrete cases for C164 and C165 *)
From Coq Require Import List Arith Lia Bool Reals Lra.
From Verif Require Import Base BaseLemmas Num NumFn Linalg Model_Toolkit Model_NNet Spec_NNet Spec_Regression Spec_Succeeds Proof_Oracles Proof_SucceedsEx
  Spec_LSStats Proof_LSStatsEx Spec_Small Proof_Small.
Import ListNotations.
Local Open Scope R_scope.

Definition ks_small : list (LayerKind R) := [KLinear 2 2 true; KActiv Sigmoid; KLinear 2 1 false; KActiv Tanh].
Definition w_small : list R := [5; -7; 3; 0; 0; 4; 1; 0].
Definition X_small : matrix R := Mat [[1; 2]; [2; 2]; [-1; 0]] 2.
Definition net_of (ks : list (LayerKind R)) (w : list R) : BaseNeuralNet R :=
  {| nn_layers := map to_layer ks; nn_weights := w; nn_criterion := MSECriterion RegNone |}.

Lemma case_net : length w_small = total_params ks_small /\ mwf X_small /\ widths ks_small (mcols X_small) = Some 1%nat /\
  stretch ks_small w_small (5 / 4).
Proof.
  split; [reflexivity|]. split; [repeat constructor|]. split; [reflexivity|].
  destruct gentle_crate as (Gs & Gt & _).
  pose proof (stretch_linear 2 2 true _ w_small _ (stretch_activ Sigmoid (1 / 4) _ _ _ Gs (stretch_linear 2 1 false _ (skipn 6 w_small) _ (stretch_activ Tanh 1 _ _ _ Gt (stretch_nil (skipn 2 (skipn 6 w_small))))))) as S.
  assert (E1 : weight_len 2 2 true w_small = 5).
  { unfold weight_len. transitivity (sqrt (5 ^ 2)); [|apply sqrt_pow2; lra]. cbn. f_equal. ring. }
  assert (E2 : weight_len 2 1 false (skipn 6 w_small) = 1).
  { unfold weight_len. transitivity (sqrt (1 ^ 2)); [|apply sqrt_pow2; lra]. cbn. f_equal. ring. }
  change (skipn ((bias_rows true + 2) * 2) w_small) with (skipn 6 w_small) in S. rewrite E1, E2 in S.
  replace (5 * (1 / 4 * (1 * (1 * 1)))) with (5 / 4) in S by field. exact S.
Qed.

Definition ks_lin : list (LayerKind R) := [KLinear 2 3 true; KActiv LinearAct; KLinear 3 1 true].
Definition w_lin : list R := [1; 2; 3; 4; 5; 6; 7; 8; 9; -1; 1; 2; 3].
Lemma case_lin : length w_lin = total_params ks_lin /\ widths ks_lin 2 = Some 1%nat /\ all_linear ks_lin /\ exists x y, net_row ks_lin w_lin x = [y] /\ length x = 2%nat /\ y <> 0.
Proof.
  split; [reflexivity|]. split; [reflexivity|]. split.
  - intros a [E|[E|[E|[]]]]; try discriminate. injection E as <-. intro x. reflexivity.
  - exists [0; 0]. eexists. split; [reflexivity|]. split; [reflexivity|]. cbn. lra.
Qed.
Lemma case_targets : solver_exact solve_any /\ mwf X3 /\ (exists p, learns solve_any X3 [1; 4; 2] p) /\ exists p', learns solve_any X3 (indicator 3 1) p'.
Proof. destruct case_loo as (A & B & _ & C & (g & G & _) & _). exact (conj A (conj B (conj C (ex_intro _ g G)))). Qed.
