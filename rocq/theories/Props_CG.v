(** * C54, C89: the conjugate gradient optimiser ([src/learning/optim/fmincg.rs]) *)
From Coq Require Import List Arith Lia Bool Reals Lra.
From Verif Require Import Base Num NumX Linalg Model_CG Spec_CG Proof_CG Proof_CG2 Proof_CGEx.
Import ListNotations.
Local Open Scope R_scope.

(** C54: the optimiser returns, after a bounded number of evaluations, a point it has evaluated; for every arithmetic. *)
Theorem C54_evaluations : forall (F : Type) (N : Num F) (self : ConjugateGD F) n cost, total_cost n cost -> forall start, length start = n ->
  exists x calls, cg_optimize self cost start = Ok x /\ length x = n /\
    (exists st, cg_run self cost start = Ok st /\ calls = rd_calls st) /\ In x calls /\
    (length calls <= 1 + cg_iters self * (1 + cg_max self))%nat.
Proof. exact @evaluations. Qed.
Print Assumptions C54_evaluations.
Example C54_evaluations_case : total_cost 2 (fun v : list R => match v with [a; b] => Ok (a * a + b, [2 * a; 1]) | _ => Panic end).
Proof. intros [|a [|b [|]]] L; try discriminate. exists (a * a + b), [2 * a; 1]. split; reflexivity. Qed.
(** The cost does not rise, for cost functions that are never NaN and have finite gradients. *)
Theorem C54_never_worse : forall (self : ConjugateGD X), sane self -> forall n cost, well_behaved n cost ->
  forall start, length start = n -> all_fin start ->
  exists x f df f' df', cg_optimize self cost start = Ok x /\ length x = n /\ all_fin x /\
    cost start = Ok (f, df) /\ cost x = Ok (f', df') /\ xleb f' f = true.
Proof. exact never_worse. Qed.
Print Assumptions C54_never_worse.
Example C54_never_worse_case : sane cg_default /\ well_behaved 1 square_cost /\ all_fin [Fin 3].
Proof. exact (conj default_sane (conj square_good (ex_intro _ [3] eq_refl))). Qed.
(** It can rise when the cost is NaN at some point on the way: from 1 to 5 in the default configuration with two rounds. *)
Theorem C54_refuted_nan_cost : exists x,
  cg_optimize two_rounds nan_cost [Fin 0] = Ok x /\ nan_cost x = Ok (Fin 5, [Fin 0]) /\ nan_cost [Fin 0] = Ok (Fin 1, [Fin (-1)]).
Proof. exact nan_cost_rises. Qed.
Print Assumptions C54_refuted_nan_cost.

(** C89: a start where the gradient vanishes is returned unchanged. *)
Theorem C89_stationary_start : forall (self : ConjugateGD X), sane self -> forall n cost, well_behaved n cost ->
  forall start f, length start = n -> all_fin start -> f <> NaN -> cost start = Ok (f, map Fin (repeat 0 n)) -> cg_optimize self cost start = Ok start.
Proof. exact stationary. Qed.
Print Assumptions C89_stationary_start.
Example C89_stationary_start_case : square_cost [Fin 0] = Ok (Fin (0 * 0), [Fin (0 + 0)]).
Proof. reflexivity. Qed.
