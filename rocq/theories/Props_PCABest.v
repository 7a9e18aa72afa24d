(** * C133, C134: how well the principal directions represent the data ([src/learning/pca.rs]) *)
From Coq Require Import List Arith Lia Reals.
From Verif Require Import Base Num Linalg Spec_Calc Model_PCA Spec_PCA Spec_PCABest Proof_PCA Proof_PCA2 Proof_PCAEx Proof_PCABest.
Import ListNotations.
Local Open Scope R_scope.

(** C133: the kept directions are jointly optimal: no other orthonormal directions, as many, catch more of the spread, and no
    flat of that dimension (through any point when centring, through 0 otherwise) is nearer to the training rows. *)
Theorem C133_jointly_optimal : forall svd (self self' : PCA R) X, svd_sound svd -> mwf X -> (0 < nrows X)%nat -> pca_train svd self X = (self', Ok tt) ->
  usable self X ->
  exists V out, pca_predict self' X = Ok out /\ stored_directions self' X (mcols out) V /\ orthonormal (mcols X) (mcols out) V /\
    projection (pca_center self) X V X out /\
    (forall W, orthonormal (mcols X) (mcols out) W ->
       sumR (mcols out) (fun j => spread (pca_center self) X (fun k => W k j)) <= sumR (mcols out) (fun j => sumR (nrows X) (fun i => entry out i j ^ 2))) /\
    (forall mu B W, (pca_center self = false -> forall k, mu k = 0) ->
       misfit X (mcols out) (centre_of (pca_center self) X) (entry out) V <= misfit X (mcols out) mu B W) /\
    (mcols out = Nat.min (nrows X) (mcols X) -> misfit X (mcols out) (centre_of (pca_center self) X) (entry out) V = 0).
Proof. exact pca_best. Qed.
Print Assumptions C133_jointly_optimal.
Example C133_ex : svd_sound svd_ex /\ mwf A3 /\ (0 < nrows A3)%nat /\ pca_train svd_ex (pca_new 3 false) A3 = (after_A3, Ok tt) /\ usable (pca_new 3 false) A3.
Proof.
  exact (conj svd_ex_sound (conj (proj1 wf_ex) (conj (Nat.lt_0_succ 2) (conj train_A3 (or_introl (conj (Nat.lt_irrefl 3) eq_refl)))))).
Qed.

(** C134: rotated rows, of training or of new data, are never further apart than the rows were; with all components they are
    exactly as far apart. *)
Theorem C134_distances : forall svd (self self' : PCA R) X, svd_sound svd -> mwf X -> (0 < nrows X)%nat -> pca_train svd self X = (self', Ok tt) ->
  usable self X -> forall Y Z, mwf Y -> mwf Z -> mcols Y = mcols X -> mcols Z = mcols X ->
  exists oy oz, pca_predict self' Y = Ok oy /\ pca_predict self' Z = Ok oz /\
    (forall i i', (i < nrows Y)%nat -> (i' < nrows Z)%nat -> row_dist2 oy i oz i' <= row_dist2 Y i Z i') /\
    (~ wide X -> wanted (pca_n self) (mcols X) = mcols X -> forall i i', (i < nrows Y)%nat -> (i' < nrows Z)%nat -> row_dist2 oy i oz i' = row_dist2 Y i Z i').
Proof. exact pca_distances. Qed.
Print Assumptions C134_distances.
Example C134_ex : svd_sound svd_ex /\ mwf A3 /\ pca_train svd_ex (pca_new 3 false) A3 = (after_A3, Ok tt) /\ usable (pca_new 3 false) A3 /\
  ~ wide A3 /\ wanted (pca_n (pca_new 3 false : PCA R)) (mcols A3) = mcols A3 /\ row_dist2 (Mat [[1; 2; 3]] 3) 0 (Mat [[1; 2; 5]] 3) 0 = 4.
Proof.
  split; [exact svd_ex_sound|]. split; [exact (proj1 wf_ex)|]. split; [exact train_A3|]. split; [exact (or_introl (conj (Nat.lt_irrefl 3) eq_refl))|].
  split; [exact (Nat.lt_irrefl 3)|]. split; [reflexivity|]. unfold row_dist2, entry. cbn. ring.
Qed.
