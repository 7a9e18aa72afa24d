(** * C147: when principal component analysis can be trained *)
From Coq Require Import List Arith Reals Lra Lia Bool.
From Verif Require Import Base Num Linalg Spec_Calc Model_PCA Spec_PCA Proof_PCAEx Spec_Succeeds2 Proof_Succeeds3.
Import ListNotations.

(** Where the decomposition answers, training succeeds exactly when no more components are asked for than
    the data have columns, and is otherwise an [InvalidData] error. *)
Theorem C147_pca_trains : forall svd (self : PCA R) X, svd_sound svd -> mwf X -> svd_answers_data svd (pca_center self) X ->
  (snd (pca_train svd self X) = Ok tt <-> wanted (pca_n self) (mcols X) <= mcols X) /\
  (snd (pca_train svd self X) = Err InvalidData <-> mcols X < wanted (pca_n self) (mcols X)).
Proof. exact pca_succeeds. Qed.
Print Assumptions C147_pca_trains.
Example C147_ex : svd_sound svd_ex /\ mwf X4 /\ svd_answers_data svd_ex true X4 /\ svd_answers_data svd_ex false W1 /\
  (exists m, pca_train svd_ex (pca_new 1 false) W1 = (m, Ok tt)) /\ pca_train svd_ex (pca_new 4 false) W1 = (pca_new 4 false, Err InvalidData).
Proof. exact (conj svd_ex_sound (conj (proj2 (proj2 wf_ex)) (conj svd_ex_X4 (conj svd_ex_W1 pca_succeeds_ex)))). Qed.
(** The same in any arithmetic, for a decomposition that answers all matrices of the size of the data. *)
Theorem C147_any_arithmetic : forall (F : Type) (N : Num F) svd (self : PCA F) X, svd_shape svd -> mwf X -> svd_answers_like svd X ->
  (snd (pca_train svd self X) = Ok tt <-> wanted (pca_n self) (mcols X) <= mcols X) /\
  (snd (pca_train svd self X) = Err InvalidData <-> mcols X < wanted (pca_n self) (mcols X)).
Proof. exact pca_succeeds_any. Qed.
Print Assumptions C147_any_arithmetic.
Example C147_any_ex : svd_shape (svd_blank (F := R)) /\ svd_answers_like svd_blank X4.
Proof. exact (svd_blank_ok _ _ X4). Qed.
(** Nothing in the assumptions about the decomposition excludes a data set: for each there is a decomposition that answers it. *)
Theorem C147_decomposition_exists : forall center (X : matrix R), mwf X -> exists svd, svd_sound svd /\ svd_answers_data svd center X.
Proof. exact svd_for_data. Qed.
Print Assumptions C147_decomposition_exists.
(** One sound decomposition can answer all members of any list of matrices. *)
Theorem C147_decompositions_exist : forall As : list (matrix R), Forall mwf As ->
  exists svd, svd_sound svd /\ Forall (fun A => exists V, svd A = Some V) As.
Proof. exact svd_answers. Qed.
Print Assumptions C147_decompositions_exist.
Example C147_exist_ex : Forall mwf [A3; W1; X4].
Proof. exact (Forall_cons _ (proj1 wf_ex) (Forall_cons _ (proj1 (proj2 wf_ex)) (Forall_cons _ (proj2 (proj2 wf_ex)) (Forall_nil _)))). Qed.
