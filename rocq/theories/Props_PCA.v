(** * C58, C85, C86: principal component analysis ([src/learning/pca.rs]) *)
From Coq Require Import List Arith Lia Bool Reals Lra.
From Verif Require Import Base Num Linalg Spec_Calc Model_PCA Spec_PCA Proof_PCA Proof_PCA2 Proof_PCAEx.
Import ListNotations.
Local Open Scope R_scope.

(** C58: errors, for every arithmetic and history. *)
Theorem C58_untrained : forall (F : Type) (N : Num F) svd (start self : PCA F),
  (start = pca_default \/ exists n c, start = pca_new n c) -> trained_on svd start [] self ->
  self = start /\ forall X, pca_predict self X = Err UntrainedModel.
Proof. exact @trained_untrained. Qed.
Print Assumptions C58_untrained.
Theorem C58_too_many_components : forall (F : Type) (N : Num F) svd (self : PCA F) X n,
  pca_n self = Some n -> (mcols X < n)%nat -> pca_train svd self X = (self, Err InvalidData).
Proof. exact @pca_train_rejects. Qed.
Print Assumptions C58_too_many_components.
Theorem C58_only_error : forall (F : Type) (N : Num F) svd (self self' : PCA F) X k,
  pca_train svd self X = (self', Err k) -> self' = self /\ k = InvalidData /\ exists n, pca_n self = Some n /\ (mcols X < n)%nat.
Proof. exact @pca_train_failed. Qed.
Print Assumptions C58_only_error.
Theorem C58_wrong_width : forall (F : Type) (N : Num F) svd (self self' : PCA F) X, svd_shape svd -> mwf X ->
  pca_train svd self X = (self', Ok tt) -> forall Xs, mcols Xs <> mcols X -> pca_predict self' Xs = Err InvalidData.
Proof.
  exact (fun F N svd self self' X HS W HT => match pca_predict_trained svd self self' X HS W HT with
    ex_intro _ _ (conj _ (conj _ (conj _ (conj _ (conj _ (conj H _)))))) => H end).
Qed.
Print Assumptions C58_wrong_width.
(** It fails for wide training data with fewer components than columns... *)
Theorem C58_refuted_wide : forall (F : Type) (N : Num F) svd (start self self' : PCA F) Ts X n, svd_shape svd -> pca_inv start = false ->
  trained_on svd start Ts self -> mwf X -> pca_train svd self X = (self', Ok tt) -> pca_n start = Some n -> (n < mcols X)%nat ->
  Exists wide Ts \/ wide X ->
  forall Xs, mwf Xs -> mcols Xs = mcols X -> pca_predict self' Xs = Panic.
Proof. exact @trained_panics. Qed.
Print Assumptions C58_refuted_wide.
(** ... and for tall training data after wide training data: the transposed matrix is used. *)
Theorem C58_refuted_history : forall svd (self self' : PCA R) X, svd_sound svd -> mwf X -> (0 < nrows X)%nat ->
  pca_train svd self X = (self', Ok tt) -> ~ wide X -> pca_inv self = true -> wanted (pca_n self) (mcols X) = mcols X ->
  exists V sigma, is_svd (nrows X) (mcols X) (mcols X) (prepared_entry (pca_center self) X) V sigma /\
    forall Xs, mwf Xs -> mcols Xs = mcols X -> exists out, pca_predict self' Xs = Ok out /\
      mcols out = mcols X /\ projection (pca_center self) X (fun k j => V j k) Xs out.
Proof. exact pca_transposed. Qed.
Print Assumptions C58_refuted_history.
Example C58_ex_history : svd_sound svd_ex /\ wide W1 /\ ~ wide A3 /\ pca_train svd_ex (pca_new 3 false) W1 = (after_W1, Ok tt) /\
  pca_train svd_ex after_W1 A3 = (after_W1_A3, Ok tt) /\ pca_train svd_ex (pca_new 3 false) A3 = (after_A3, Ok tt) /\
  (forall a b c, pca_predict after_A3 (Mat [[a; b; c]] 3) = Ok (Mat [[b; c; a]] 3)) /\
  (forall a b c, pca_predict after_W1_A3 (Mat [[a; b; c]] 3) = Ok (Mat [[c; a; b]] 3)).
Proof.
  exact (conj svd_ex_sound (conj (proj1 (Nat.ltb_lt 1 3) eq_refl) (conj (Nat.lt_irrefl 3) (conj (proj1 train_W1) (conj train_W1_A3 (conj train_A3
    (conj predict_A3 predict_W1_A3))))))).
Qed.
Example C58_ex_wide : exists self, pca_train svd_ex (pca_new 1 false) W1 = (self, Ok tt) /\ pca_predict self W1 = Panic /\
  pca_get_components self = Ok (Mat [[3 / 5]] 1).
Proof. exact train_W1_1. Qed.

(** C85: histories of tall training sets, or a wide one with all components. *)
Theorem C85_usable_histories : forall svd (start self : PCA R) Ts X, svd_shape svd -> pca_inv start = false -> trained_on svd start Ts self ->
  (Forall (fun T => ~ wide T) (Ts ++ [X]) \/ (wide X /\ wanted (pca_n start) (mcols X) = mcols X)) -> usable self X.
Proof. exact trained_usable. Qed.
Print Assumptions C85_usable_histories.
Theorem C85_value : forall svd (self self' : PCA R) X, svd_sound svd -> mwf X -> (0 < nrows X)%nat -> pca_train svd self X = (self', Ok tt) ->
  usable self X ->
  exists V sigma, is_svd (nrows X) (mcols X) (Nat.min (nrows X) (mcols X)) (prepared_entry (pca_center self) X) V sigma /\
    (exists comp, pca_get_components self' = Ok comp /\ mwf comp /\
       (wide X -> nrows comp = nrows X /\ mcols comp = mcols X /\ forall i j, (i < nrows comp)%nat -> (j < mcols comp)%nat -> entry comp i j = V j i) /\
       (~ wide X -> nrows comp = mcols X /\ mcols comp = wanted (pca_n self) (mcols X) /\
          forall i j, (i < nrows comp)%nat -> (j < mcols comp)%nat -> entry comp i j = V i j)) /\
    forall Xs, mwf Xs -> mcols Xs = mcols X -> exists out, pca_predict self' Xs = Ok out /\
      mcols out = Nat.min (nrows X) (wanted (pca_n self) (mcols X)) /\
      projection (pca_center self) X V Xs out.
Proof. exact pca_values_split. Qed.
Print Assumptions C85_value.
Example C85_ex : svd_sound svd_ex /\ mwf X4 /\ exists self, pca_train svd_ex pca_default X4 = (self, Ok tt) /\ usable pca_default X4 /\
  pca_predict self (Mat [[5]] 1) = Ok (Mat [[4]] 1).
Proof. exact (conj svd_ex_sound (conj (proj2 (proj2 wf_ex)) train_X4)). Qed.
Example C85_ex_wide : pca_train svd_ex (pca_new 3 false) W1 = (after_W1, Ok tt) /\ usable (pca_new 3 false) W1.
Proof. exact train_W1. Qed.

(** C86: the rotated training data has uncorrelated columns, and column [j] has the largest spread
    among all directions orthogonal to the first [j] ones. *)
Theorem C86_principal : forall svd (self self' : PCA R) X, svd_sound svd -> mwf X -> (0 < nrows X)%nat -> pca_train svd self X = (self', Ok tt) ->
  usable self X ->
  exists V out, pca_predict self' X = Ok out /\ projection (pca_center self) X V X out /\ nrows out = nrows X /\
    mcols out = Nat.min (nrows X) (wanted (pca_n self) (mcols X)) /\
    orthonormal (mcols X) (mcols out) V /\
    (forall a b, (a < mcols out)%nat -> (b < mcols out)%nat -> a <> b -> sumR (nrows X) (fun i => entry out i a * entry out i b) = 0) /\
    (forall j u, (j < mcols out)%nat -> sumR (mcols X) (fun k => u k * u k) = 1 ->
       (forall l, (l < j)%nat -> sumR (mcols X) (fun k => V k l * u k) = 0) ->
       spread (pca_center self) X u <= sumR (nrows X) (fun i => entry out i j * entry out i j)).
Proof. exact pca_principal. Qed.
Print Assumptions C86_principal.
Theorem C86_mean_zero : forall (X out : matrix R) V, (0 < nrows X)%nat -> projection true X V X out ->
  forall j, (j < mcols out)%nat -> sumR (nrows X) (fun i => entry out i j) = 0.
Proof. exact pca_mean_zero. Qed.
Print Assumptions C86_mean_zero.
Example C86_ex : svd_sound svd_ex /\ mwf A3 /\ (0 < nrows A3)%nat /\ pca_train svd_ex (pca_new 3 false) A3 = (after_A3, Ok tt) /\ usable (pca_new 3 false) A3.
Proof.
  exact (conj svd_ex_sound (conj (proj1 wf_ex) (conj (Nat.lt_0_succ 2) (conj train_A3 (or_introl (conj (Nat.lt_irrefl 3) eq_refl)))))).
Qed.
