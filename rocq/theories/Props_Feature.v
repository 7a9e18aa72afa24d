(** * C184: one feature, and one feature more, in linear regression ([src/learning/lin_reg.rs]) *)
From Coq Require Import List Arith Reals.
From Verif Require Import Base Num Linalg Model_Regression Spec_Regression Spec_Succeeds Proof_Oracles Proof_SucceedsEx Spec_LSStats Spec_Feature Proof_Feature Proof_FeatureEx.
Import ListNotations.
Local Open Scope R_scope.

(** One feature: training succeeds exactly when two inputs differ, and stores covariance over variance. *)
Theorem C184_single_trains : forall solve, solver_exact solve -> forall xs ys,
  (exists p, learns solve (single xs) ys p) <-> length ys = length xs /\ exists a b, In a xs /\ In b xs /\ a <> b.
Proof. exact single_trains. Qed.
Print Assumptions C184_single_trains.
Theorem C184_single_closed_form : forall solve, solver_exact solve -> forall xs ys p, learns solve (single xs) ys p -> 0 < codev xs xs /\
  p = [avg ys - codev xs ys / codev xs xs * avg xs; codev xs ys / codev xs xs] /\
  rss (single xs) ys p = codev ys ys - codev xs ys ^ 2 / codev xs xs.
Proof. exact single_closed_form. Qed.
Print Assumptions C184_single_closed_form.
Example C184_ex_single : solver_exact solve_any /\ (exists p, learns solve_any (single [0; 1; 2]) [1; 4; 2] p) /\
  codev [0; 1; 2] [0; 1; 2] = 2 /\ codev [0; 1; 2] [1; 4; 2] = 1.
Proof. exact (conj solve_any_exact (conj bump_single bump_values)). Qed.

(** One feature more: training succeeds exactly when it did before and the feature is not an affine function of the others. *)
Theorem C184_feature_trains : forall solve, solver_exact solve -> forall X, mwf X -> forall c, length c = nrows X -> forall y,
  (exists q, learns solve (with_feature X c) y q) <->
  length y = nrows X /\ spans X /\ ~ exists g, length g = S (mcols X) /\ forall i, (i < nrows X)%nat -> unexplained X c g i = 0.
Proof. exact feature_trains. Qed.
Print Assumptions C184_feature_trains.
(** What it changes depends only on the part of the feature which the others do not explain. *)
Theorem C184_feature : forall solve, solver_exact solve -> forall X, mwf X -> forall c, length c = nrows X -> forall y q,
  learns solve (with_feature X c) y q ->
  exists p g, learns solve X y p /\ learns solve X c g /\
    let e := unexplained X c g in let s := sumR (nrows X) (fun i => e i ^ 2) in let t := sumR (nrows X) (fun i => e i * nth i y 0) in
    0 < s /\ q = map2 (fun pk gk => pk - t / s * gk) p g ++ [t / s] /\ rss (with_feature X c) y q = rss X y p - t ^ 2 / s.
Proof. exact feature_learns. Qed.
Print Assumptions C184_feature.
(** The fit to the training data never gets worse, and stays the same only if the new coefficient is zero and the old ones stay. *)
Theorem C184_never_worse : forall solve, solver_exact solve -> forall X, mwf X -> forall c, length c = nrows X -> forall y p q,
  learns solve X y p -> learns solve (with_feature X c) y q ->
  rss (with_feature X c) y q <= rss X y p /\ (rss (with_feature X c) y q = rss X y p <-> q = p ++ [0]).
Proof. exact feature_never_worse. Qed.
Print Assumptions C184_never_worse.
(** A feature uncorrelated with the others leaves their coefficients alone. *)
Theorem C184_uncorrelated : forall solve, solver_exact solve -> forall X, mwf X -> forall c, length c = nrows X -> forall y p q,
  (forall k, (k < mcols X)%nat -> sumR (nrows X) (fun i => (nth i c 0 - avg c) * nth k (nth i (mrows X) []) 0) = 0) ->
  learns solve X y p -> learns solve (with_feature X c) y q ->
  (forall k, (k < mcols X)%nat -> nth (S k) q 0 = nth (S k) p 0) /\
  nth (S (mcols X)) q 0 = sumR (nrows X) (fun i => (nth i c 0 - avg c) * nth i y 0) / sumR (nrows X) (fun i => (nth i c 0 - avg c) ^ 2).
Proof. exact feature_uncorrelated. Qed.
Print Assumptions C184_uncorrelated.
Example C184_ex : solver_exact solve_any /\ mwf (single [0; 1; 2]) /\ length [1; -2; 1] = nrows (single [0; 1; 2]) /\ spans (single [0; 1; 2]) /\
  (exists p, learns solve_any (single [0; 1; 2]) [1; 4; 2] p) /\ (exists q, learns solve_any (with_feature (single [0; 1; 2]) [1; -2; 1]) [1; 4; 2] q) /\
  forall k, (k < 1)%nat -> sumR 3 (fun i => (nth i [1; -2; 1] 0 - avg [1; -2; 1]) * nth k (nth i (mrows (single [0; 1; 2])) []) 0) = 0.
Proof. exact (conj solve_any_exact (conj (single_wf _) (conj eq_refl (conj bump_spans (conj bump_single (conj bump_both bump_uncorrelated)))))). Qed.
