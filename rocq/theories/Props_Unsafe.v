(** * C150, C151: the [unsafe] blocks ([src/learning/knn], [pca.rs], [nnet/mod.rs], [k_means.rs]) *)
From Coq Require Import List Arith Bool Reals.
From Verif Require Import Base Num NumFn NumF Linalg Model_Toolkit Model_Optim Model_Cost Model_Regression Model_KNN Model_KMeans Model_PCA Spec_PCA Model_NNet Spec_NNet.
From Verif Require Import Model_Unsafe Spec_Unsafe Proof_KNNEx Proof_Unsafe Proof_Unsafe2 Proof_UnsafeEx Proof_Gaps.
Import ListNotations.
Local Open Scope nat_scope.

(** C150 fails: a classifier trained on two columns and asked about one reads past the end of the query row. *)
Theorem C150_refuted_narrow_query : forall checked,
  (exists fuel leafsize c, knn_train (tree_searcher kd_split fuel leafsize) (fresh 1 None) plane [0; 1; 2] = (c, Ok tt) /\
    m_knn_predict (m_tree_search checked kd_split) c line = MUB) /\
  (exists fuel leafsize c, knn_train (tree_searcher ball_split fuel leafsize) (fresh 1 None) plane [0; 1; 2] = (c, Ok tt) /\
    m_knn_predict (m_tree_search checked ball_split) c line = MUB).
Proof. exact (fun checked => conj (narrow_kd checked) (narrow_ball checked)). Qed.
Print Assumptions C150_refuted_narrow_query.
Example C150_ex_data : mwf plane /\ mwf line /\ mcols line < mcols plane /\ nrows plane = 3.
Proof. exact plane_wf. Qed.
(** ... and so does every tree whose root splits on a column the query does not have, in any arithmetic. *)
Theorem C150_refuted_any_narrow_query : forall (F : Type) (N : Num F) (G : Type) (B : BinarySplit (F := F) G) checked t dim data point k,
  splits_on t dim -> length point <= dim -> m_tree_search checked B (Some (t, data)) point k = MUB.
Proof. exact (fun F N G B checked => tree_narrow checked B). Qed.
Print Assumptions C150_refuted_any_narrow_query.
Example C150_ex_tree : (exists t, tree_build kd_split 20 2 plane = Some (Ok t) /\ splits_on t 1) /\ (exists t, tree_build ball_split 20 2 plane = Some (Ok t) /\ splits_on t 1).
Proof. exact (conj kd_plane ball_plane). Qed.
(** C150 fails: asked for no neighbours, a tree with a branch panics when overflow is checked and otherwise reads before its buffer. *)
Theorem C150_refuted_no_neighbours : forall (G : Type) (B : BinarySplit (F := R) G) fuel leafsize t dim data point checked,
  mwf data -> 0 < nrows data -> mcols data <= length point -> tree_build B fuel leafsize data = Some (Ok t) -> splits_on t dim ->
  m_tree_search checked B (Some (t, data)) point 0 = if checked then MPanic else MUB.
Proof. exact (fun G => @tree_zero G). Qed.
Print Assumptions C150_refuted_no_neighbours.
Example C150_ex_zero : forall checked, (exists fuel c, knn_train (tree_searcher kd_split fuel 2) (fresh 0 None) real_points [0; 1; 2] = (c, Ok tt) /\
    m_knn_predict (m_tree_search checked kd_split) c real_points = if checked then MPanic else MUB) /\
  (exists fuel c, knn_train (tree_searcher ball_split fuel 2) (fresh 0 None) real_points [0; 1; 2] = (c, Ok tt) /\
    m_knn_predict (m_tree_search checked ball_split) c real_points = if checked then MPanic else MUB).
Proof. exact (fun checked => conj (zero_kd checked) (zero_ball checked)). Qed.
(** C150 fails: a layer written in safe code that supplies fewer parameters than it advertises. *)
Theorem C150_refuted_custom_layer : forall rng X c,
  m_net_predict (net_add rng (net_new c) liar) X = MUB /\ m_get_net_weights (net_add rng (net_new c) liar) 0 = MUB.
Proof. exact liar_undefined. Qed.
Print Assumptions C150_refuted_custom_layer.
(** C150 fails: [compute_grad] with too few or too many parameters; it never returns with a wrong number of them. *)
Theorem C150_refuted_parameter_count :
  m_net_compute_grad unit_net [] one_point one_point = MUB /\ m_net_compute_grad unit_net [0%R; 0%R] one_point one_point = MUB.
Proof. exact grad_wrong_length. Qed.
Print Assumptions C150_refuted_parameter_count.
(** C150 fails: a PCA model used after a training that panicked half way. *)
Theorem C150_refuted_pca_after_panic : exists self1 self2, pca_train svd_flaky pca_default square2 = (self1, Ok tt) /\
  pca_train svd_flaky self1 one_point = (self2, Panic) /\ m_pca_predict self2 square2 = MUB.
Proof. exact pca_after_panic. Qed.
Print Assumptions C150_refuted_pca_after_panic.

(** C151: brute force, whatever the arguments, in either build profile and any arithmetic. *)
Theorem C151_brute_force : forall (F : Type) (N : Num F) checked data point k, sound_as (m_brute_search checked data point k) (brute_search data point k).
Proof. exact (fun F N => brute_sound). Qed.
Print Assumptions C151_brute_force.
(** C151: building a tree. *)
Theorem C151_tree_building : forall (F : Type) (N : Num F) (G : Type) (B : BinarySplit (F := F) G) fuel leafsize data, mwf data ->
  sound_as_opt (m_tree_build B fuel leafsize data) (tree_build B fuel leafsize data).
Proof. exact (fun F N G => build_sound). Qed.
Print Assumptions C151_tree_building.
(** C151: searching a built tree for at least one neighbour of a point with at least the columns of the data. *)
Theorem C151_tree_search : forall (F : Type) (N : Num F) checked (G : Type) (B : BinarySplit (F := F) G) fuel leafsize t data point k,
  mwf data -> 1 <= k -> mcols data <= length point -> tree_build B fuel leafsize data = Some (Ok t) ->
  sound_as (m_tree_search checked B (Some (t, data)) point k) (tree_search B (Some (t, data)) point k).
Proof. exact (fun F N checked G => tree_sound checked). Qed.
Print Assumptions C151_tree_search.
Theorem C151_tree_untrained : forall (F : Type) (N : Num F) checked (G : Type) (B : BinarySplit (F := F) G) point k,
  sound_as (m_tree_search checked B None point k) (tree_search B None point k) /\ tree_search B None point k = Err UntrainedModel.
Proof. exact (fun F N checked G => tree_untrained checked). Qed.
Print Assumptions C151_tree_untrained.
(** C151: classifiers. *)
Theorem C151_classifiers : forall (F : Type) (N : Num F) checked,
  (forall test cl, sound_as (m_knn_predict (m_brute_search checked) cl test) (knn_predict brute_search cl test)) /\
  (forall (G : Type) (B : BinarySplit (F := F) G) fuel leafsize t data test cl, mwf data -> mwf test -> mcols test = mcols data -> 1 <= knn_k _ cl ->
     tree_build B fuel leafsize data = Some (Ok t) -> knn_searcher _ cl = Some (t, data) ->
     sound_as (m_knn_predict (m_tree_search checked B) cl test) (knn_predict (tree_search B) cl test)).
Proof. exact (fun F N checked => conj (classifier_brute_sound checked) (fun G => classifier_tree_sound checked)). Qed.
Print Assumptions C151_classifiers.
Example C151_ex_tree : mwf plane /\ exists t, tree_build kd_split 20 2 plane = Some (Ok t) /\ splits_on t 1.
Proof. exact (conj (proj1 plane_wf) kd_plane). Qed.
(** C151: PCA, for every history of trainings that returned. *)
Theorem C151_pca : forall (F : Type) (N : Num F),
  (forall X, mwf X -> sound_as (m_pca_train_centering X) (centering X (col_mean X))) /\
  (forall svd start self Ts X, (start = pca_default \/ exists n c, start = pca_new n c) -> trained_on svd start Ts self -> mwf X ->
     sound_as (m_pca_predict self X) (pca_predict self X)).
Proof. exact (fun F N => conj pca_train_sound pca_predict_sound). Qed.
Print Assumptions C151_pca.
Example C151_ex_pca : exists self, trained_on svd_flaky pca_default [square2] self /\ mwf square2 /\ exists Y, m_pca_predict self square2 = MOk Y.
Proof. exact pca_trained_ex. Qed.
(** C151: networks made of layers that keep their word, however they were built and trained. *)
Theorem C151_networks : forall (F : Type) (N : Num F) (NF : NumFn F) net X idx, reachable net ->
  sound_as (m_net_predict net X) (net_predict net X) /\ sound_as (m_get_net_weights net idx) (get_net_weights net idx).
Proof. exact (fun F N NF => net_sound). Qed.
Print Assumptions C151_networks.
(** C151: gradients for as many parameters as the layers hold, and for no other number of parameters does [compute_grad] return. *)
Theorem C151_gradients : forall (F : Type) (N : Num F) (NF : NumFn F) net w X T,
  (length w = list_sum (map num_params (nn_layers net)) -> sound_as (m_net_compute_grad net w X T) (net_compute_grad net w X T)) /\
  (forall r, m_net_compute_grad net w X T = MOk r -> length w = list_sum (map num_params (nn_layers net))).
Proof. exact (fun F N NF net w X T => conj (grad_sound net w X T) (grad_returns_length net w X T)). Qed.
Print Assumptions C151_gradients.
Example C151_ex_net : reachable unit_net /\ exists r, m_net_compute_grad unit_net [0%R] one_point one_point = MOk r.
Proof. exact (conj unit_net_reachable unit_net_returns). Qed.
(** C151: the initialisers of k-means. *)
Theorem C151_initialisers : forall (F : Type) (N : Num F),
  (forall k n r, outcome (m_partition_loop k n) (Some r) -> exists a, r = MOk a /\ outcome (partition_loop k n) (Some a)) /\
  (forall X k first us, mwf X -> first < nrows X -> 1 <= k -> length us = k - 1 ->
     sound_as (m_kpp X k first us) (let? (_, c) := kpp X k first us in Ok c)).
Proof. exact (fun F N => conj partition_sound kpp_sound). Qed.
Print Assumptions C151_initialisers.
Example C151_ex_init : (exists a, outcome (m_partition_loop 2 3) (Some (MOk a))) /\
  mwf three_rows /\ 0 < nrows three_rows /\ length [(1 / 2)%R] = 2 - 1 /\ exists c, m_kpp three_rows 2 0 [(1 / 2)%R] = MOk c.
Proof. exact (conj partition_ex three_ok). Qed.
