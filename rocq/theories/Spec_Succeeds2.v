(** Specification of when principal component analysis can be trained. *)
From Coq Require Import List Arith Reals.
From Verif Require Import Base Num Linalg Spec_Calc Model_PCA Spec_PCA.
Import ListNotations.
Local Open Scope R_scope.

(** The decomposition answers all matrices shaped like [X]. *)
Definition svd_answers_like {F} (svd : matrix F -> option (matrix F)) (X : matrix F) : Prop :=
  forall A, mwf A -> nrows A = nrows X -> mcols A = mcols X -> exists V, svd A = Some V.
(** The decomposition answers [X] or, if [center] is set, [X] with the column means subtracted. *)
Definition svd_answers_data (svd : matrix R -> option (matrix R)) (center : bool) (X : matrix R) : Prop :=
  forall A, mwf A -> nrows A = nrows X -> mcols A = mcols X ->
    (forall i k, (i < nrows X)%nat -> (k < mcols X)%nat -> entry A i k = prepared_entry center X i k) -> exists V, svd A = Some V.
