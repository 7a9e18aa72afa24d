(** Concrete runs for the examples of [Props_Optim]. *)
From Coq Require Import List Arith Lia Bool Reals Lra.
From Verif Require Import Base BaseLemmas Num Linalg LinalgR Model_Rand Model_Optim Spec_Optim Proof_Optim Proof_Optim2.
Import ListNotations.
Local Open Scope R_scope.

Definition gd_ex : GradientDesc R := {| gd_alpha := 1 / 2; gd_iters := 2 |}.
Definition f_ex (x : list R) : R := at_ x 0 * at_ x 0 / 2.
Definition G_ex (x : list R) : list R := x.

Lemma eps_le a b : 1 / 100 <= Rabs (a - b) -> @nltb R NumR (@nabs R NumR (@nsub R NumR a b)) learning_eps = false.
Proof.
  intros H. rewrite learning_eps_R. cbn [nltb nabs nsub NumR]. destruct (Rlt_dec _ _) as [K|]; [|reflexivity]. exfalso.
  assert (E : / 10 ^ 20 <= / 10 ^ 2). { apply Rinv_le_contravar; [apply pow_lt; lra|]. apply Rle_pow; [lra|lia]. }
  cbn [pow] in *. lra.
Qed.
Lemma gd_ex_run : gd_optimize gd_ex (fun x => Ok (f_ex x, G_ex x)) [1] = Ok [1 / 4].
Proof.
  unfold gd_optimize. cbn [gd_iters gd_ex gd_loop rbind]. unfold f_ex, G_ex, at_ at 1 2. cbn [nth].
  rewrite eps_le. 2:{ cbn [nzero NumR]. match goal with |- _ <= Rabs ?x => replace x with (- (1 / 2)) by (cbn; lra) end. rewrite Rabs_left; lra. }
  unfold rvsub, rassert, vscale. cbn [length map Nat.eqb rbind vsub map2]. unfold at_. cbn [nth].
  cbn [gd_alpha nsub nmul NumR]. rewrite eps_le. 2:{ cbn [gd_alpha gd_ex]. rewrite Rabs_right; lra. }
  cbn [map length Nat.eqb map2]. cbn [gd_alpha gd_ex]. do 2 f_equal. lra.
Qed.
Lemma f_ex_smooth : smooth 1 f_ex G_ex 1 /\ gd_alpha gd_ex * 1 <= 1 /\ f_ex [1] = 1 / 2.
Proof.
  split; [|split].
  - intros x Lx. split; [exact Lx|]. intros y Ly. destruct x as [|a [|]], y as [|b [|]]; try discriminate.
    unfold f_ex, G_ex, at_. cbn [vsub map2 nth]. rewrite !dot_cons, !dot_nil_l. cbn [nsub NumR]. nra.
  - cbn. lra.
  - unfold f_ex, at_. cbn. lra.
Qed.

(** Cost 1, gradient [10 * w + x * t]. *)
Definition cg_ex (w : list R) (x t : matrix R) : res (R * list R) :=
  Ok (1, [at_ w 0 * 10 + nth 0 (nth 0 (mrows x) []) 0 * nth 0 (nth 0 (mrows t) []) 0]).
Definition sgd_ex : StochasticGD R := {| sgd_alpha := 1; sgd_mu := 1; sgd_iters := 1 |}.
Lemma sgd_ex_run : exists v, outcome (sgd_optimize sgd_ex cg_ex [0] (Mat [[1]; [2]] 1) (Mat [[3]; [5]] 1)) (Some [v]) /\ v = 364.
Proof.
  eexists. split.
  - unfold sgd_optimize, stoch_optimize. cbn [nrows mrows length seq sgd_iters sgd_ex stoch_loop repeat].
    unfold in_place_fisher_yates. cbn -[stoch_pass nltb].
    apply out_gen with 1%nat; [lia|]. cbn -[stoch_pass nltb]. apply out_gen with 0%nat; [lia|]. cbn -[stoch_pass nltb].
    cbn [stoch_pass]. cbn -[nltb learning_eps].
    destruct (nltb _ _); constructor.
  - cbn. unfold at_. cbn. lra.
Qed.

Lemma ada_ex : exists self w' a', ada_new 1 3 100 = Ok self /\
  run_steps (ada_step self) ([2], repeat 0 1) [] = Ok ([2], [0]) /\
  ada_step self ([2], [0]) [3] = Ok ([w'], [a']) /\ w' = 3 / 2 /\ a' = 9.
Proof.
  exists {| ada_alpha := 1; ada_tau := 3; ada_iters := 100 |}. do 2 eexists. split; [|split; [reflexivity|split; [reflexivity|]]].
  - unfold ada_new. cbn. destruct (Rlt_dec 0 1); [|lra]. cbn. destruct (Rle_dec 0 3); [reflexivity|lra].
  - cbn. replace (0 + 3 * 3) with (3 * 3) by ring. rewrite sqrt_square by lra. split; lra.
Qed.

Lemma rms_ex : exists self w' a', rms_new 1 (3 / 4) (7 / 4) 1 = Ok self /\
  run_steps (rms_step self) ([2], repeat 0 1) [] = Ok ([2], [0]) /\
  rms_step self ([2], [0]) [3] = Ok ([w'], [a']) /\ w' = 1 / 2 /\ a' = 9 / 4.
Proof.
  exists {| rms_rate := 1; rms_decay := 3 / 4; rms_epsilon := 7 / 4; rms_iters := 1 |}. do 2 eexists. split; [|split; [reflexivity|split; [reflexivity|]]].
  - unfold rms_new. cbn. destruct (Rlt_dec 0 1); [|lra]. cbn. destruct (Rlt_dec 0 (3 / 4)); [|lra]. destruct (Rlt_dec (3 / 4) 1); [|lra]. cbn.
    destruct (Rlt_dec 0 (7 / 4)); [reflexivity|lra].
  - cbn. split; [|lra]. match goal with |- context [sqrt ?t] => replace t with (2 * 2) by lra end. rewrite sqrt_square by lra. lra.
Qed.
Lemma some_outcome {A} (m : Rnd A) : exists o, outcome m o.
Proof.
  induction m as [a|hi k IH|].
  - eexists. constructor.
  - destruct hi as [|hi]; [eexists; apply out_gen0|]. destruct (IH 0%nat) as (o & Ho). exists o. econstructor; [|exact Ho]. lia.
  - eexists. constructor.
Qed.
Lemma rms_ex_run : exists v, outcome (rms_optimize {| rms_rate := 1; rms_decay := 3 / 4; rms_epsilon := 7 / 4; rms_iters := 1 |}
    cg_ex [0] (Mat [[1]; [2]] 1) (Mat [[3]; [5]] 1)) (Some v).
Proof.
  destruct (stoch_no_panic 1 cg_ex (Mat [[1]; [2]] 1) (Mat [[3]; [5]] 1) [0]) as (_ & _ & N3);
    [intros; do 2 eexists; split; reflexivity|cbn; lia|reflexivity|].
  match goal with |- exists v, outcome ?p _ => destruct (some_outcome p) as ([v|] & O) end; [now exists v|now apply N3 in O].
Qed.
