(** * Specification: preprocessing before training *)
From Coq Require Import List Arith Reals.
From Verif Require Import Base Num NumX Linalg Spec_Calc Model_Transforms Spec_Transforms Model_PCA Spec_PCA.
Import ListNotations.
Local Open Scope R_scope.

(** [tr] is the transformation of a scaler fitted to the training rows [A]: to a proper range, or to a non-zero deviation
    when no feature is constant. *)
Inductive fitted_scaling (A : matrix R) : (matrix R -> res (matrix X)) -> Prop :=
| fs_minmax smin smax sc : smin <> smax -> in_f64_range A -> (0 < nrows A)%nat ->
    minmax_fit (Fin smin) (Fin smax) (inj A) = Ok sc -> fitted_scaling A (fun n => minmax_transform sc (inj n))
| fs_standardizer smean sstd st : sstd <> 0 -> (2 <= nrows A)%nat -> (forall j, (j < mcols A)%nat -> varies A j) ->
    standardizer_fit (Fin smean) (Fin sstd) (inj A) = Ok st -> fitted_scaling A (fun n => standardizer_transform st (inj n)).

(** [self'] is a PCA model trained on the rows of [A], not fewer than there are columns, with all components kept. *)
Definition full_pca (svd : matrix R -> option (matrix R)) (self : PCA R) (A : matrix R) (self' : PCA R) : Prop :=
  svd_sound svd /\ mwf A /\ (0 < mcols A)%nat /\ ~ wide A /\ pca_inv self = false /\ wanted (pca_n self) (mcols A) = mcols A /\
  pca_train svd self A = (self', Ok tt).
