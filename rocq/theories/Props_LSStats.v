(** * C162, C163: least squares as a statistical estimate *)
From Coq Require Import List Arith Reals.
From Verif Require Import Base Num Linalg Model_Regression Spec_Regression Spec_Succeeds Proof_Oracles Proof_SucceedsEx Spec_LSStats Proof_LSStats Proof_LSStatsEx.
Import ListNotations.
Local Open Scope R_scope.

(** C162: the residuals of a trained model are orthogonal to every affine function of the features; in particular they sum
    to zero. *)
Theorem C162_residuals : forall (X : matrix R), mwf X -> forall solve y p, solver_sound solve -> learns solve X y p ->
  forall q, length q = S (mcols X) ->
  sumR (nrows X) (fun i => (nth i y 0 - affine p (nth i (mrows X) [])) * affine q (nth i (mrows X) [])) = 0.
Proof. exact residuals. Qed.
Print Assumptions C162_residuals.
Example C162_residuals_ex : solver_exact solve_any /\ mwf X3 /\ spans X3 /\ (exists p, learns solve_any X3 [1; 4; 2] p) /\
  (exists g, learns solve_any X3 (indicator 3 1) g /\ affine g [1] = / 3) /\
  exists p', learns solve_any (leave_out 1 X3) (without 1 [1; 4; 2]) p'.
Proof. exact case_loo. Qed.

(** C162 (Gauss and Markov): if the targets are an affine function [w] of the features plus noise of mean zero, equal
    variance and no correlation, the parameters learnt have mean [w], and no unbiased weighting of the targets estimates any
    combination [c] of the parameters with a smaller mean squared error. *)
Theorem C162_gauss_markov : forall (X : matrix R), mwf X -> forall solve, solver_exact solve -> spans X ->
  forall m pr e s2 w params, noise_law (nrows X) m pr e s2 -> length w = S (mcols X) ->
  (forall s, (s < m)%nat -> learns solve X (observed X w (e s)) (params s)) ->
  (forall k, (k < S (mcols X))%nat -> sumR m (fun s => pr s * nth k (params s) 0) = nth k w 0) /\
  forall c u, length c = S (mcols X) -> length u = nrows X -> unbiased X c u ->
    spread m pr (fun s => pairing (S (mcols X)) c (params s)) (pairing (S (mcols X)) c w) <=
    spread m pr (fun s => pairing (nrows X) u (observed X w (e s))) (pairing (S (mcols X)) c w).
Proof. exact gauss_markov_full. Qed.
Print Assumptions C162_gauss_markov.
Example C162_gauss_markov_ex : solver_exact solve_any /\ mwf X3 /\ spans X3 /\ noise_law (nrows X3) 4 (fun _ => / 4) e4 1 /\
  (exists params, forall s, (s < 4)%nat -> learns solve_any X3 (observed X3 [5; 2] (e4 s)) (params s)) /\
  unbiased X3 [0; 1] [-1; 1; 0].
Proof. exact case_law. Qed.

(** C162: a weighting that is as good as the training gives the same answers. *)
Theorem C162_only_best : forall (X : matrix R), mwf X -> forall solve, solver_exact solve -> spans X ->
  forall m pr e s2 w params, noise_law (nrows X) m pr e s2 -> length w = S (mcols X) ->
  (forall s, (s < m)%nat -> learns solve X (observed X w (e s)) (params s)) ->
  forall c u, length c = S (mcols X) -> length u = nrows X -> unbiased X c u -> 0 < s2 ->
    spread m pr (fun s => pairing (nrows X) u (observed X w (e s))) (pairing (S (mcols X)) c w) <=
    spread m pr (fun s => pairing (S (mcols X)) c (params s)) (pairing (S (mcols X)) c w) ->
    forall y p, learns solve X y p -> pairing (S (mcols X)) c p = pairing (nrows X) u y.
Proof. exact gauss_markov_only. Qed.
Print Assumptions C162_only_best.
Example C162_only_best_ex : solver_exact solve_any /\ mwf X3 /\ spans X3 /\ noise_law (nrows X3) 4 (fun _ => / 4) e4 1 /\
  (exists params, forall s, (s < 4)%nat -> learns solve_any X3 (observed X3 [5; 2] (e4 s)) (params s)) /\
  unbiased X3 [0; 1] [- / 2; 0; / 2] /\
  forall p y, learns solve_any X3 y p -> nth 1 p 0 = - / 2 * nth 0 y 0 + / 2 * nth 2 y 0.
Proof. exact case_best. Qed.

(** C162: the sum of squared residuals over (rows minus parameters) estimates the noise variance without bias. *)
Theorem C162_residual_variance : forall (X : matrix R), mwf X -> forall solve, solver_exact solve -> spans X ->
  forall m pr e s2 w params, noise_law (nrows X) m pr e s2 -> length w = S (mcols X) ->
  (forall s, (s < m)%nat -> learns solve X (observed X w (e s)) (params s)) ->
  sumR m (fun s => pr s * rss X (observed X w (e s)) (params s)) = s2 * (INR (nrows X) - INR (S (mcols X))).
Proof. exact residual_variance. Qed.
Print Assumptions C162_residual_variance.
Example C162_residual_variance_ex : solver_exact solve_any /\ mwf X3 /\ spans X3 /\ noise_law (nrows X3) 4 (fun _ => / 4) e4 1 /\
  (exists params, forall s, (s < 4)%nat -> learns solve_any X3 (observed X3 [5; 2] (e4 s)) (params s)) /\
  unbiased X3 [0; 1] [-1; 1; 0].
Proof. exact case_law. Qed.

(** C163: the leverage of a row, the answer for it when its target alone is one, lies between 1/rows and 1; the leverages add
    up to the number of parameters. *)
Theorem C163_leverages : forall (X : matrix R), mwf X -> forall solve, solver_exact solve -> spans X -> forall P,
  (forall i, (i < nrows X)%nat -> learns solve X (indicator (nrows X) i) (P i)) ->
  (forall i, (i < nrows X)%nat -> / INR (nrows X) <= affine (P i) (nth i (mrows X) []) <= 1) /\
  sumR (nrows X) (fun i => affine (P i) (nth i (mrows X) [])) = INR (S (mcols X)).
Proof. exact leverages. Qed.
Print Assumptions C163_leverages.
Example C163_leverages_ex : solver_exact solve_any /\ mwf X3 /\ spans X3 /\
  forall i, (i < nrows X3)%nat -> learns solve_any X3 (indicator (nrows X3) i) (stored_for solve_any X3 (indicator (nrows X3) i)).
Proof. exact (conj solve_any_exact (conj X3_wf (conj X3_spans (all_ind X3 X3_wf solve_any solve_any_exact X3_spans)))). Qed.

(** C163: the residual at a row left out of the training is the ordinary residual divided by one minus the leverage. *)
Theorem C163_leave_one_out : forall (X : matrix R), mwf X -> forall solve, solver_exact solve -> spans X ->
  forall i y p p' g, (i < nrows X)%nat -> learns solve X y p -> learns solve X (indicator (nrows X) i) g ->
  learns solve (leave_out i X) (without i y) p' ->
  (1 - affine g (nth i (mrows X) [])) * (nth i y 0 - affine p' (nth i (mrows X) [])) = nth i y 0 - affine p (nth i (mrows X) []).
Proof. exact leave_one_out. Qed.
Print Assumptions C163_leave_one_out.
Example C163_leave_one_out_ex : solver_exact solve_any /\ mwf X3 /\ spans X3 /\ (exists p, learns solve_any X3 [1; 4; 2] p) /\
  (exists g, learns solve_any X3 (indicator 3 1) g /\ affine g [1] = / 3) /\
  exists p', learns solve_any (leave_out 1 X3) (without 1 [1; 4; 2]) p'.
Proof. exact case_loo. Qed.

(** C163: training without a row succeeds exactly when the leverage of the row is below one. *)
Theorem C163_leave_one_out_trains : forall (X : matrix R), mwf X -> forall solve, solver_exact solve -> spans X ->
  forall i y g, (i < nrows X)%nat -> length y = nrows X -> learns solve X (indicator (nrows X) i) g ->
  ((exists p', learns solve (leave_out i X) (without i y) p') <-> affine g (nth i (mrows X) []) < 1).
Proof. exact leave_one_out_trains. Qed.
Print Assumptions C163_leave_one_out_trains.
Example C163_leave_one_out_trains_ex : solver_exact solve_any /\ mwf X3 /\ spans X3 /\ (exists p, learns solve_any X3 [1; 4; 2] p) /\
  (exists g, learns solve_any X3 (indicator 3 1) g /\ affine g [1] = / 3) /\
  exists p', learns solve_any (leave_out 1 X3) (without 1 [1; 4; 2]) p'.
Proof. exact case_loo. Qed.
