(** * C121: the cost of stochastic training ([src/learning/optim/grad_desc.rs]) *)
From Coq Require Import List Arith Lia Bool Reals Lra Permutation.
From Verif Require Import Base Num Linalg Model_Rand Model_Optim Spec_Optim Spec_Regret Proof_Regret Proof_RegretEx.
Import ListNotations.
Local Open Scope R_scope.

(** C121: with convex row costs, [StochasticGD] meets costs whose sum exceeds the cost of any fixed parameters by a bounded amount,
    whatever the random orders. *)
Theorem C121_sgd : forall n cg inputs targets f G, row_costs n cg inputs targets f G -> (forall i w, length w = n -> length (G i w) = n) ->
  (forall i, (i < nrows inputs)%nat -> convex n (f i) (G i)) ->
  forall (self : StochasticGD R) start v, 0 < sgd_alpha self < 1 -> 0 < sgd_mu self -> length start = n ->
  outcome (sgd_optimize self cg start inputs targets) (Some v) -> exists orders ws,
    Forall (Permutation (seq 0 (nrows inputs))) orders /\ (length orders <= sgd_iters self)%nat /\
    visits (sgd_next (sgd_alpha self) (sgd_mu self)) G (concat orders) start (repeat 0 n) ws v /\
    forall B, 0 <= B -> gradients_within n G B (concat orders) ws -> forall u, length u = n ->
      incurred f (concat orders) ws <= INR (length orders) * fixed_cost f (nrows inputs) u +
        sumR n (fun j => (at_ start j - at_ u j) ^ 2) * (1 - sgd_alpha self) / (2 * sgd_mu self) +
        INR n * INR (length orders) * INR (nrows inputs) * (sgd_mu self * B ^ 2 / (2 * (1 - sgd_alpha self)) + sgd_alpha self ^ 2 * sgd_mu self * B ^ 2 / (1 - sgd_alpha self) ^ 2).
Proof. exact sgd_regret. Qed.
Print Assumptions C121_sgd.
Example C121_sgd_case : row_costs 1 ls_cg ls_in ls_out ls_f ls_G /\ (forall i, convex 1 (ls_f i) (ls_G i)) /\ 0 < sgd_alpha ls_sgd < 1 /\
  exists v, outcome (sgd_optimize ls_sgd ls_cg [0] ls_in ls_out) (Some v).
Proof. split; [exact ls_rows|]. split; [exact ls_convex|]. split; [cbn; lra|exact (proj1 ls_runs)]. Qed.
(** For [AdaGrad] the excess grows with the square root of the number of visits only. *)
Theorem C121_adagrad : forall n cg inputs targets f G, row_costs n cg inputs targets f G -> (forall i w, length w = n -> length (G i w) = n) ->
  (forall i, (i < nrows inputs)%nat -> convex n (f i) (G i)) ->
  forall (self : AdaGrad R) start v, 0 < ada_alpha self -> 0 < ada_tau self -> length start = n ->
  outcome (ada_optimize self cg start inputs targets) (Some v) -> exists orders ws,
    Forall (Permutation (seq 0 (nrows inputs))) orders /\ (length orders <= ada_iters self)%nat /\
    visits (ada_next (ada_alpha self) (ada_tau self)) G (concat orders) start (repeat 0 n) ws v /\
    forall B D u, 0 <= B -> 0 <= D -> length u = n -> gradients_within n G B (concat orders) ws -> stays_within n D u ws ->
      incurred f (concat orders) ws <= INR (length orders) * fixed_cost f (nrows inputs) u +
        sumR n (fun j => (at_ start j - at_ u j) ^ 2) * ada_tau self / (2 * ada_alpha self) +
        INR n * (D ^ 2 / (2 * ada_alpha self) + ada_alpha self) * B * sqrt (INR (length orders) * INR (nrows inputs)).
Proof. exact ada_regret. Qed.
Print Assumptions C121_adagrad.
Example C121_adagrad_case : row_costs 1 ls_cg ls_in ls_out ls_f ls_G /\ (forall i, convex 1 (ls_f i) (ls_G i)) /\ 0 < ada_alpha ls_ada /\ 0 < ada_tau ls_ada /\
  exists v, outcome (ada_optimize ls_ada ls_cg [0] ls_in ls_out) (Some v).
Proof. split; [exact ls_rows|]. split; [exact ls_convex|]. split; [cbn; lra|]. split; [cbn; lra|exact (proj2 ls_runs)]. Qed.
