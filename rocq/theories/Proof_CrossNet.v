(** * A network with one hidden layer answers exclusive-or (C196) *)
From Coq Require Import List Arith Lia Bool Reals Lra.
From Verif Require Import Base BaseLemmas Num NumFn Linalg LinalgR Model_Toolkit Model_Regression Model_NNet Proof_Flat Spec_Between Proof_Between Spec_Cross Proof_Cross.
Import ListNotations.
Local Open Scope R_scope.

Definition xor_weights : list R := [-10; 30; 20; -20; 20; -20; -30; 20; 20].
Lemma sigmoid_pos z : 0 <= z -> (1 + z) / (2 + z) <= sigmoid z < 1.
Proof.
  intros H. unfold sigmoid. cbn [ndiv nadd nonev nexp nopp NumR NumFnR]. pose proof (exp_ineq1_le z). pose proof (exp_pos (- z)) as P.
  rewrite exp_Ropp in *. assert (Q : / exp z <= / (1 + z)) by (apply Rinv_le_contravar; lra). split.
  - replace ((1 + z) / (2 + z)) with (1 / (1 + / (1 + z))) by (field; lra). unfold Rdiv. rewrite !Rmult_1_l. apply Rinv_le_contravar; lra.
  - unfold Rdiv. rewrite Rmult_1_l. apply Rlt_le_trans with (/ 1); [apply Rinv_lt_contravar; lra|rewrite Rinv_1; lra].
Qed.
Lemma sigmoid_neg z : z <= 0 -> 0 < sigmoid z <= 1 - (1 - z) / (2 - z).
Proof.
  intros H. assert (E : sigmoid z = 1 - sigmoid (- z)).
  { unfold sigmoid. cbn [ndiv nadd nonev nexp nopp NumR NumFnR]. rewrite Ropp_involutive, exp_Ropp. pose proof (exp_pos z). field. lra. }
  destruct (sigmoid_pos (- z)) as [A B]; [lra|]. rewrite E. replace (1 + - z) with (1 - z) in A by ring. replace (2 + - z) with (2 - z) in A by ring. lra.
Qed.
Lemma sigmoid_above z : 0 < z -> 1 / 2 < sigmoid z.
Proof.
  intros H. destruct (sigmoid_pos z) as [A _]; [lra|]. apply Rlt_le_trans with (2 := A). apply Rmult_lt_reg_r with (2 * (2 + z)); [lra|].
  replace ((1 + z) / (2 + z) * (2 * (2 + z))) with (2 + 2 * z) by (field; lra). lra.
Qed.
Lemma sigmoid_below z : z < 0 -> sigmoid z < 1 / 2.
Proof.
  intros H. destruct (sigmoid_neg z) as [_ A]; [lra|]. apply Rle_lt_trans with (1 := A). assert (1 / 2 < (1 - z) / (2 - z)); [|lra].
  apply Rmult_lt_reg_r with (2 * (2 - z)); [lra|]. replace ((1 - z) / (2 - z) * (2 * (2 - z))) with (2 - 2 * z) by (field; lra). lra.
Qed.
Theorem net_xor rng : exists net o00 o11 o01 o10, net_default rng [2; 2; 1]%nat = Ok net /\ length xor_weights = length (nn_weights net) /\
  net_predict (set_weights net xor_weights) square = Ok (Mat [[o00]; [o11]; [o01]; [o10]] 1) /\
  o00 < 1 / 2 /\ o11 < 1 / 2 /\ 1 / 2 < o01 /\ 1 / 2 < o10.
Proof.
  unfold net_default, net_mlp. cbn [length Nat.leb rassert]. eexists. do 4 eexists. split; [reflexivity|]. split; [reflexivity|].
  split. { unfold net_predict, forward_prop, set_weights, square, xor_weights. cbn -[sigmoid]. reflexivity. }
  destruct (sigmoid_neg (-10) ltac:(lra)) as [A1 A2]. destruct (sigmoid_pos 10 ltac:(lra)) as [B1 B2]. destruct (sigmoid_pos 30 ltac:(lra)) as [C1 C2].
  replace (0 + 1 * -10 + 0 * 20 + 0 * 20) with (-10) by ring. replace (0 + 1 * 30 + 0 * -20 + 0 * -20) with 30 by ring.
  replace (0 + 1 * -10 + 1 * 20 + 1 * 20) with 30 by ring. replace (0 + 1 * 30 + 1 * -20 + 1 * -20) with (-10) by ring.
  replace (0 + 1 * -10 + 0 * 20 + 1 * 20) with 10 by ring. replace (0 + 1 * 30 + 0 * -20 + 1 * -20) with 10 by ring.
  replace (0 + 1 * -10 + 1 * 20 + 0 * 20) with 10 by ring. replace (0 + 1 * 30 + 1 * -20 + 0 * -20) with 10 by ring.
  split; [apply sigmoid_below; lra|]. split; [apply sigmoid_below; lra|]. split; apply sigmoid_above; lra.
Qed.

Section Single.
  Variables (net : BaseNeuralNet R) (d : nat).
  Hypothesis HL : nn_layers net = mlp_layers [d; 1%nat] Sigmoid.
  Hypothesis HW : length (nn_weights net) = S d.
  Lemma single_log x a : length x = d -> net_predict net (query x) = Ok (Mat [[a]] 1) -> log_predict {| log_parameters := Some (nn_weights net) |} (query x) = Ok [a].
  Proof.
    intros Lx H. assert (W : mwf (query x)) by (unfold mwf, query; cbn; now repeat constructor).
    destruct (flat_log_predict net (query x)) as (out & E & P); [cbn; now rewrite Lx|cbn; now rewrite Lx|exact W|]. rewrite P in H. rewrite E. f_equal.
    unfold as_column in H. injection H as H. destruct out as [|o [|o' out]]; try discriminate. cbn in H. congruence.
  Qed.
  Theorem single_never_split x x' y y' a a' b b' h : length x = d -> length y = d -> crossing x x' y y' ->
    net_predict net (query x) = Ok (Mat [[a]] 1) -> net_predict net (query x') = Ok (Mat [[a']] 1) -> net_predict net (query y) = Ok (Mat [[b]] 1) -> net_predict net (query y') = Ok (Mat [[b']] 1) ->
    ~ (h < a /\ h < a' /\ b <= h /\ b' <= h).
  Proof.
    intros Lx Ly C H1 H2 H3 H4. pose proof C as (L & L' & _). apply single_log in H1, H2, H3, H4; try congruence.
    exact (between_never_split _ (log_between {| log_parameters := Some (nn_weights net) |}) x x' y y' a a' b b' h C H1 H2 H3 H4).
  Qed.
End Single.
Lemma single_case rng : exists net : BaseNeuralNet R, net_default rng [2; 1]%nat = Ok net /\ nn_layers net = mlp_layers [2%nat; 1%nat] Sigmoid /\ length (nn_weights net) = 3%nat /\ exists a, net_predict net (query [0; 0]) = Ok (Mat [[a]] 1).
Proof.
  destruct (flat_built rng 2 (BCECriterion RegNone) Sigmoid) as (net & E & L & _ & W). exists net. split; [exact E|]. split; [exact L|]. split; [exact W|].
  destruct (flat_log_predict net (query [0; 0])) as (out & P & Q); [exact L|exact W|repeat constructor|].
  assert (Lo : length out = 1%nat).
  { unfold log_predict in P. cbn [log_parameters] in P. destruct (rmat_vec (with_ones (query [0; 0])) (nn_weights net)) as [v| |] eqn:Ev; try discriminate. cbn [rbind] in P. injection P as <-.
    rewrite map_length. unfold rmat_vec, rassert in Ev. destruct (_ =? _)%nat; [|discriminate]. injection Ev as <-. reflexivity. }
  destruct out as [|a [|]]; try discriminate. exists a. exact Q.
Qed.
