(** * C51, C52, C53, C72, C73: gradient-descent optimisers ([src/learning/optim/grad_desc.rs]) *)
From Coq Require Import List Arith Lia Bool Reals Lra Permutation.
From Verif Require Import Base Num NumX Linalg Spec_Calc Model_Optim Spec_Optim Proof_Optim Proof_Optim2 Proof_OptimEx Proof_Converge Proof_Converge2.
Import ListNotations.

(** C72: the iterates, for every arithmetic: [xs] are the points at which a step was made, [cs]
    their costs. *)
Theorem C72_gd_steps : forall (F : Type) (N : Num F) (self : GradientDesc F) cg start w, gd_optimize self cg start = Ok w ->
  exists xs cs, length xs = length cs /\ length cs <= gd_iters self /\ nth 0 (xs ++ [w]) [] = start /\
    (forall i, i < length cs -> exists g, cg (nth i xs []) = Ok (nth i cs nzero, g) /\
       gd_next (gd_alpha self) (nth i xs []) g (nth (S i) (xs ++ [w]) []) /\
       nltb (nabs (nsub (previous cs i) (nth i cs nzero))) learning_eps = false) /\
    (length cs = gd_iters self \/
     exists c g, cg w = Ok (c, g) /\ nltb (nabs (nsub (previous cs (length cs)) c)) learning_eps = true).
Proof. intros F N self cg start w. exact (gd_loop_spec (gd_alpha self) cg (gd_iters self) start nzero w). Qed.
Print Assumptions C72_gd_steps.
Theorem C72_eps : @learning_eps R NumR = (/ 10 ^ 20)%R.
Proof. exact learning_eps_R. Qed.
Print Assumptions C72_eps.
Example C72_gd_steps_ex : gd_optimize gd_ex (fun x => Ok (f_ex x, G_ex x)) [1%R] = Ok [(1 / 4)%R].
Proof. exact gd_ex_run. Qed.

(** C51 fails in one respect: the first cost is compared with zero instead of a previous cost, so a
    start with cost zero is returned although a step would decrease the cost. *)
Theorem C51_refuted_zero_cost_start : exists (self : GradientDesc R) (f : list R -> R) (start : list R),
  0 < gd_iters self /\ gd_new 1%R 1 = Ok self /\ smooth 1 f (fun _ => [1%R]) 1 /\ length start = 1 /\
  gd_optimize self (fun x => Ok (f x, [1%R])) start = Ok start /\
  forall y, gd_next (gd_alpha self) start [1%R] y -> (f y <= f start - 1 / 2)%R.
Proof. exact gd_stops_at_once. Qed.
Print Assumptions C51_refuted_zero_cost_start.

(** C51: no step increases a cost with Lipschitz gradient when [alpha <= 1/L]. *)
Theorem C51_descent : forall n f G L alpha x y, smooth n f G L -> (0 <= alpha)%R -> (alpha * L <= 1)%R -> length x = n ->
  gd_next alpha x (G x) y -> (f y <= f x - alpha / 2 * dot (G x) (G x))%R.
Proof. exact descent_step. Qed.
Print Assumptions C51_descent.
Theorem C51_result_no_worse : forall (f : list R -> R) (G : list R -> list R) n L (self : GradientDesc R) cg, smooth n f G L ->
  (forall x, length x = n -> cg x = Ok (f x, G x)) ->
  (0 <= gd_alpha self)%R -> (gd_alpha self * L <= 1)%R -> forall start w, length start = n ->
  gd_optimize self cg start = Ok w -> (f w <= f start)%R /\ length w = n.
Proof. exact gd_descent. Qed.
Print Assumptions C51_result_no_worse.
(** Quadratic costs with a symmetric matrix whose quadratic form is at most [L] times the square
    are of this kind. *)
Theorem C51_quadratic : forall (A : matrix R) (b : list R) n L, nrows A = n -> mcols A = n -> length b = n ->
  (forall u v, length u = n -> length v = n -> dot u (mat_vec A v) = dot v (mat_vec A u)) ->
  (forall v, length v = n -> (dot v (mat_vec A v) <= L * dot v v)%R) ->
  smooth n (quadratic A b) (quadratic_grad A b) L.
Proof. exact quadratic_smooth. Qed.
Print Assumptions C51_quadratic.
Example C51_ex : smooth 1 f_ex G_ex 1 /\ (gd_alpha gd_ex * 1 <= 1)%R /\ f_ex [1%R] = (1 / 2)%R.
Proof. exact f_ex_smooth. Qed.

(** C52. *)
Theorem C52_sgd : forall (F : Type) (N : Num F) (self : StochasticGD F) cg start inputs targets v,
  outcome (sgd_optimize self cg start inputs targets) (Some v) ->
  exists orders, Forall (Permutation (seq 0 (nrows inputs))) orders /\ length orders <= sgd_iters self /\
    epochs cg (sgd_next (sgd_alpha self) (sgd_mu self)) inputs targets learning_eps (sgd_iters self) nzero
      start (repeat nzero (length start)) orders v /\ length v = length start.
Proof. intros F N self cg start inputs targets v. exact (optimize_epochs cg (sgd_step self) _ inputs targets (sgd_step_next self) _ start v). Qed.
Print Assumptions C52_sgd.
Theorem C52_adagrad : forall (F : Type) (N : Num F) (self : AdaGrad F) cg start inputs targets v,
  outcome (ada_optimize self cg start inputs targets) (Some v) ->
  exists orders, Forall (Permutation (seq 0 (nrows inputs))) orders /\ length orders <= ada_iters self /\
    epochs cg (ada_next (ada_alpha self) (ada_tau self)) inputs targets learning_eps (ada_iters self) nzero
      start (repeat nzero (length start)) orders v /\ length v = length start.
Proof. intros F N self cg start inputs targets v. exact (optimize_epochs cg (ada_step self) _ inputs targets (ada_step_next self) _ start v). Qed.
Print Assumptions C52_adagrad.
Theorem C52_rmsprop : forall (F : Type) (N : Num F) (self : RMSProp F) cg start inputs targets v,
  outcome (rms_optimize self cg start inputs targets) (Some v) ->
  exists orders, Forall (Permutation (seq 0 (nrows inputs))) orders /\ length orders <= rms_iters self /\
    epochs cg (rms_next (rms_rate self) (rms_decay self) (rms_epsilon self)) inputs targets learning_eps (rms_iters self) nzero
      start (repeat nzero (length start)) orders v /\ length v = length start.
Proof. intros F N self cg start inputs targets v. exact (optimize_epochs cg (rms_step self) _ inputs targets (rms_step_next self) _ start v). Qed.
Print Assumptions C52_rmsprop.
Theorem C52_no_panic : forall (F : Type) (N : Num F) (n : nat) cg (inputs targets : matrix F) start,
  (forall w x t, length w = n -> exists c g, cg w x t = Ok (c, g) /\ length g = n) ->
  nrows inputs <= nrows targets -> length start = n ->
  (forall self, ~ outcome (sgd_optimize self cg start inputs targets) None) /\
  (forall self, ~ outcome (ada_optimize self cg start inputs targets) None) /\
  (forall self, ~ outcome (rms_optimize self cg start inputs targets) None).
Proof. exact @stoch_no_panic. Qed.
Print Assumptions C52_no_panic.
(** A run visiting two rows, second row first. *)
Example C52_ex : exists v, outcome (sgd_optimize sgd_ex cg_ex [0%R] (Mat [[1%R]; [2%R]] 1) (Mat [[3%R]; [5%R]] 1)) (Some [v]) /\ v = 364%R.
Proof. exact sgd_ex_run. Qed.

(** C53. *)
Theorem C53_rmsprop : forall (self : RMSProp R) start gs w a g w' a',
  (0 <= rms_rate self)%R -> (0 < rms_decay self < 1)%R -> (0 < rms_epsilon self)%R ->
  run_steps (rms_step self) (start, repeat 0%R (length start)) gs = Ok (w, a) -> rms_step self (w, a) g = Ok (w', a') ->
  forall j, j < length start -> (Rabs (at_ w' j - at_ w j) <= rms_rate self / sqrt (1 - rms_decay self))%R.
Proof. exact rms_bounded. Qed.
Print Assumptions C53_rmsprop.
Theorem C53_rmsprop_total : forall (self : RMSProp R) cg start inputs targets v,
  (0 <= rms_rate self)%R -> (0 < rms_decay self < 1)%R -> (0 < rms_epsilon self)%R ->
  outcome (rms_optimize self cg start inputs targets) (Some v) -> forall j, j < length start ->
  (Rabs (at_ v j - at_ start j) <= INR (rms_iters self) * INR (nrows inputs) * (rms_rate self / sqrt (1 - rms_decay self)))%R.
Proof. exact rms_total. Qed.
Print Assumptions C53_rmsprop_total.
Example C53_ex : exists self w' a', rms_new 1%R (3 / 4)%R (7 / 4)%R 1 = Ok self /\
  run_steps (rms_step self) ([2%R], repeat 0%R 1) [] = Ok ([2%R], [0%R]) /\
  rms_step self ([2%R], [0%R]) [3%R] = Ok ([w'], [a']) /\ w' = (1 / 2)%R /\ a' = (9 / 4)%R.
Proof. exact rms_ex. Qed.
Example C53_ex_total : exists v, outcome (rms_optimize {| rms_rate := 1%R; rms_decay := (3 / 4)%R; rms_epsilon := (7 / 4)%R; rms_iters := 1 |}
    cg_ex [0%R] (Mat [[1%R]; [2%R]] 1) (Mat [[3%R]; [5%R]] 1)) (Some v).
Proof. exact rms_ex_run. Qed.
(** With [tau = 0], which [AdaGrad::new] accepts, a zero gradient gives 0/0. *)
Theorem C53_refuted_adagrad_tau_zero : exists (self : AdaGrad X) cg (inputs targets : matrix X),
  ada_new (Fin 1) (Fin 0) 1 = Ok self /\ (forall w x t, cg w x t = Ok (Fin 1, [Fin 0])) /\
  forall o, outcome (ada_optimize self cg [Fin 5] inputs targets) o -> o = Some [NaN].
Proof. exact ada_tau_zero_nan. Qed.
Print Assumptions C53_refuted_adagrad_tau_zero.

(** C73: AdaGrad steps are bounded when [tau > 0] or some gradient so far was not zero. *)
Theorem C73_adagrad_step : forall (self : AdaGrad R) start gs w a g w' a', (0 <= ada_alpha self)%R -> (0 <= ada_tau self)%R ->
  run_steps (ada_step self) (start, repeat 0%R (length start)) gs = Ok (w, a) -> ada_step self (w, a) g = Ok (w', a') ->
  forall j, j < length start -> (0 < ada_tau self \/ at_ a' j <> 0)%R -> (Rabs (at_ w' j - at_ w j) <= ada_alpha self)%R.
Proof. exact ada_bounded. Qed.
Print Assumptions C73_adagrad_step.
Theorem C73_adagrad_total : forall (self : AdaGrad R) cg start inputs targets v, (0 <= ada_alpha self)%R -> (0 < ada_tau self)%R ->
  outcome (ada_optimize self cg start inputs targets) (Some v) -> forall j, j < length start ->
  (Rabs (at_ v j - at_ start j) <= INR (ada_iters self) * INR (nrows inputs) * ada_alpha self)%R.
Proof. exact ada_total. Qed.
Print Assumptions C73_adagrad_total.
Example C73_ex : exists self w' a', ada_new 1%R 3%R 100 = Ok self /\
  run_steps (ada_step self) ([2%R], repeat 0%R 1) [] = Ok ([2%R], [0%R]) /\
  ada_step self ([2%R], [0%R]) [3%R] = Ok ([w'], [a']) /\ w' = (3 / 2)%R /\ a' = 9%R.
Proof. exact ada_ex. Qed.

(** C95: on a smooth convex cost the result is compared with any point [q].  The second case is
    the early exit (two successive costs closer than 1e-20), the third the exit before any step. *)
Theorem C95_convex_rate : forall n f G L (self : GradientDesc R) cg start, smooth n f G L -> convex n f G ->
  (forall x, length x = n -> cg x = Ok (f x, G x)) -> (0 < gd_alpha self)%R -> (gd_alpha self * L <= 1)%R -> length start = n ->
  exists w, gd_optimize self cg start = Ok w /\ length w = n /\ forall q, length q = n ->
    let D := sumR n (fun k => (nth k start 0 - nth k q 0) ^ 2)%R in
    (2 * gd_alpha self * INR (gd_iters self) * (f w - f q) <= D \/
     f w - f q <= sqrt (2 * / 10 ^ 20 / gd_alpha self) * sqrt D \/
     w = start /\ Rabs (f start) < / 10 ^ 20)%R.
Proof. exact gd_rate'. Qed.
Print Assumptions C95_convex_rate.
Example C95_ex : convex 1 f_ex G_ex /\ smooth 1 f_ex G_ex 1 /\ (0 < gd_alpha gd_ex)%R /\ (gd_alpha gd_ex * 1 <= 1)%R /\ length [1%R] = 1.
Proof. destruct f_ex_smooth as (A & B & _). repeat split; auto; try apply A; auto. exact convex_ex. cbn; Lra.lra. Qed.
