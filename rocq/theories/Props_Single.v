(** * C172: with one cluster or one component the models reduce to averages *)
From Coq Require Import List Arith Lia Bool Reals Lra.
From Verif Require Import Base Num NumF NumFn Linalg Spec_Calc Model_KMeans Model_GMM Spec_GMM Proof_GMMEx Spec_Single Proof_Single Proof_SingleEx Proof_KMeansEx.
Import ListNotations.
Local Open Scope R_scope.

(** K-means, in every arithmetic, from every initial centroid and with every iteration limit above zero. *)
Theorem C172_one_cluster : forall (F : Type) (N : Num F) tol (c X : matrix F) (m : @KMeans F),
  km_k m = 1%nat -> km_iters m <> O -> nrows X <> O -> nrows c = 1%nat -> mcols c = mcols X ->
  km_train tol (Ok c) m X = (km_set m (Mat [col_mean X] (mcols X)), Ok tt).
Proof. exact @one_cluster. Qed.
Print Assumptions C172_one_cluster.
Example C172_one_cluster_case : km_k (F := B64) (km_new 1 5) = 1%nat /\ nrows spread = 4%nat /\ nrows (col1 [98]%Z) = 1%nat /\ mcols (col1 [98]%Z) = mcols spread.
Proof. repeat split. Qed.
(** In exact arithmetic these are the means of the columns. *)
Theorem C172_column_means : forall (X : matrix R) j, (j < mcols X)%nat -> nth j (col_mean X) 0 = data_mean X j.
Proof. exact one_cluster_mean. Qed.
Print Assumptions C172_column_means.
Example C172_column_means_case : (0 < mcols D02)%nat /\ nrows D02 = 2%nat.
Proof. cbn. split; [lia|reflexivity]. Qed.
Theorem C172_one_cluster_predict : forall (F : Type) (N : Num F) (m : @KMeans F) r w (Z : matrix F),
  km_centroids m = Some (Mat [r] w) -> mcols Z = w -> km_predict m Z = Ok (repeat 0%nat (nrows Z)).
Proof. exact @one_cluster_predict. Qed.
Print Assumptions C172_one_cluster_predict.
Example C172_one_cluster_predict_case : km_centroids (km_set (km_new 1 5) (Mat [[50]] 1)) = Some (Mat [[50]] 1) /\ mcols D02 = 1%nat.
Proof. repeat split. Qed.
(** Mixture models.  Either the loop ended before its first update, or the result is the Gaussian with the
    mean and the covariance of the data, whatever row was drawn and however many rounds were made. *)
Theorem C172_one_component : forall lup, lup_sound lup -> forall (self : GMM R) X self', well_started self -> gmm_comp_count self = 1%nat -> mwf X ->
  outcome (gmm_train lup self X) (Some (self', Ok tt)) ->
  (starting X self self' /\ (gmm_max_iters self = O \/
     exists g, component_densities lup (mcols X) self' g /\ Rabs (log_likelihood X self' g - gmm_log_lik self) < 1 / 10 ^ 15)) \/
  single_gaussian X self'.
Proof. exact one_component. Qed.
Print Assumptions C172_one_component.
Example C172_one_component_case : lup_sound lupR /\ well_started gmm1 /\ gmm_comp_count gmm1 = 1%nat /\ mwf D02 /\ exists self', outcome (gmm_train lupR gmm1 D02) (Some (self', Ok tt)).
Proof. exact (conj lupR_sound (conj gmm1_started (conj eq_refl (conj D02_wf train1)))). Qed.
Theorem C172_one_component_predict : forall lup, lup_sound lup -> forall d (self : GMM R) X P, gmm_comp_count self = 1%nat -> mixture d self -> mwf X -> mcols X = d ->
  gmm_predict lup self X = Ok P -> P = Mat (repeat [1] (nrows X)) 1.
Proof. exact one_component_predict. Qed.
Print Assumptions C172_one_component_predict.
Example C172_one_component_predict_case : gmm_comp_count start1 = 1%nat /\ mixture 1 start1 /\ exists P, gmm_predict lupR start1 D02 = Ok P.
Proof. exact (conj eq_refl (conj start1_mixture predict1)). Qed.
