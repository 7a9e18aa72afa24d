(** * C127, C128: does k-means training improve on its starting centroids? ([src/learning/k_means.rs]) *)
From Coq Require Import List Arith Bool ZArith Reals.
From Verif Require Import Base Num NumX NumF Linalg Model_KMeans Spec_Transforms Spec_KMInv Spec_KPP Spec_KMCost Proof_KMeansEx Proof_KMCost Proof_KMCostEx.
Import ListNotations.
Local Open Scope nat_scope.

(** C127 refuted, with the default settings in binary64: on the rows 0, 20, 3, 2, 22, 39 and k = 3, k-means++ (first draw
    3, then 0.9 and 0) chooses the rows 2, 39 and 0; in the second iteration the first centroid loses its last row and
    becomes NaN, every row is then assigned to it, and training ends, Ok, with all rows in one cluster and a
    larger cost than at the start. *)
Theorem C127_refuted_default : exists C0 m', kpp six 3 3 draws = Ok ([3; 5; 0], C0) /\
  km_predict (km_set (km_new 3 100) C0) six = Ok [2; 0; 0; 0; 1; 1] /\
  km_train tol64 (Ok C0) (km_new 3 100) six = (m', Ok tt) /\
  km_predict m' six = Ok [0; 0; 0; 0; 0; 0] /\
  nltb (cost_of (km_set (km_new 3 100) C0) six) (cost_of m' six) = true.
Proof. exact made_worse. Qed.
Print Assumptions C127_refuted_default.

(** C128: as long as the first centroid keeps rows, other centroids that lose theirs do no harm: the objective of the
    centres left at the end is at most that of the starting centroids. Exact arithmetic with NaN. *)
Theorem C128_no_worse : forall (M C0 : matrix R) k tol iters, mwf M -> mwf C0 -> mcols C0 = mcols M -> nrows C0 = k -> 0 < k <= nrows M -> 0 < mcols M ->
  (forall t, t <= iters -> exists C v, centres tol (km_new k t) (Ok (inj C0)) (inj M) = Some C /\ nth 0 (mrows C) [] = map Fin v) ->
  exists C, centres tol (km_new k iters) (Ok (inj C0)) (inj M) = Some C /\ (potential M (usable C) <= potential M C0)%R.
Proof. exact cost_kept. Qed.
Print Assumptions C128_no_worse.
Example C128_ex : forall tol iters, (0 < tol)%R -> mwf twins /\ nrows twins = 2 /\
  (forall t, t <= iters -> exists C v, centres (Fin tol) (km_new 2 t) (Ok (inj twins)) (inj twins) = Some C /\ nth 0 (mrows C) [] = map Fin v) /\
  (0 < iters -> exists C v, centres (Fin tol) (km_new 2 iters) (Ok (inj twins)) (inj twins) = Some C /\ mrows C = [map Fin v; [NaN]]).
Proof. exact twins_kept. Qed.
