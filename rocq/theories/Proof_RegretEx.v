(** * Concrete cases for the regret of the stochastic optimisers *)
From Coq Require Import List Arith Lia Bool Reals Lra Permutation.
From Verif Require Import Base BaseLemmas Num Linalg LinalgR Model_Rand Model_Optim Spec_Optim Proof_Optim Proof_Optim2 Proof_OptimEx Spec_Regret.
Import ListNotations.
Local Open Scope R_scope.

(** Least squares with one parameter: cost [(w x - t)^2]. *)
Definition ls_cg (w : list R) (x t : matrix R) : res (R * list R) :=
  let xi := at_ (nth 0 (mrows x) []) 0 in let ti := at_ (nth 0 (mrows t) []) 0 in
  Ok ((at_ w 0 * xi - ti) ^ 2, [2 * xi * (at_ w 0 * xi - ti)]).
Definition ls_in : matrix R := Mat [[1]; [2]] 1.
Definition ls_out : matrix R := Mat [[3]; [5]] 1.
Definition ls_f (i : nat) (w : list R) : R := (at_ w 0 * at_ (nth i (mrows ls_in) []) 0 - at_ (nth i (mrows ls_out) []) 0) ^ 2.
Definition ls_G (i : nat) (w : list R) : list R :=
  [2 * at_ (nth i (mrows ls_in) []) 0 * (at_ w 0 * at_ (nth i (mrows ls_in) []) 0 - at_ (nth i (mrows ls_out) []) 0)].
Lemma ls_rows : row_costs 1 ls_cg ls_in ls_out ls_f ls_G.
Proof. intros i x t w Hx Ht L. unfold ls_f, ls_G. rewrite (nth_error_nth _ _ _ Hx), (nth_error_nth _ _ _ Ht). split; reflexivity. Qed.
Lemma ls_convex i : convex 1 (ls_f i) (ls_G i).
Proof.
  intros x y Lx Ly. destruct x as [|a [|]], y as [|b [|]]; try discriminate. unfold ls_f, ls_G. cbn [vsub map2]. rewrite dot_cons, dot_nil_l. unfold at_. cbn [nth nsub nmul nadd nzero NumR].
  set (p := nth 0 (nth i (mrows ls_in) []) 0). set (q := nth 0 (nth i (mrows ls_out) []) 0). pose proof (pow2_ge_0 ((b - a) * p)). nra.
Qed.
Definition ls_sgd : StochasticGD R := {| sgd_alpha := 1 / 10; sgd_mu := 1 / 10; sgd_iters := 20 |}.
Definition ls_ada : AdaGrad R := {| ada_alpha := 1; ada_tau := 3; ada_iters := 100 |}.
Lemma ls_runs : (exists v, outcome (sgd_optimize ls_sgd ls_cg [0] ls_in ls_out) (Some v)) /\ exists v, outcome (ada_optimize ls_ada ls_cg [0] ls_in ls_out) (Some v).
Proof.
  destruct (stoch_no_panic 1 ls_cg ls_in ls_out [0]) as (N1 & N2 & _); [intros; do 2 eexists; split; reflexivity|cbn; lia|reflexivity|]. split.
  - destruct (some_outcome (sgd_optimize ls_sgd ls_cg [0] ls_in ls_out)) as ([v|] & O); [now exists v|]. now apply N1 in O.
  - destruct (some_outcome (ada_optimize ls_ada ls_cg [0] ls_in ls_out)) as ([v|] & O); [now exists v|]. now apply N2 in O.
Qed.
