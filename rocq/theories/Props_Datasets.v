(** * C155, C156: the bundled data sets *)
From Coq Require Import List Arith Reals.
From Verif Require Import Base Num NumFn NumF Linalg Model_Datasets Spec_Datasets Spec_B64 Model_Optim Model_Regression Model_GLM Model_KNN Model_History Spec_Regression Spec_Separable
  Spec_Succeeds Proof_Datasets Proof_Datasets2 Proof_Oracles Proof_SucceedsEx.
Import ListNotations.

(** C155: shapes, in every arithmetic. *)
Theorem C155_iris_shape : forall (F : Type) (N : Num F),
  mwf (ds_data (@iris_load F N)) /\ nrows (ds_data (@iris_load F N)) = 150 /\ mcols (ds_data (@iris_load F N)) = 4 /\
  length (ds_target (@iris_load F N)) = 150 /\ forall i, i < 150 -> nth i (ds_target (@iris_load F N)) 0 = i / 50.
Proof. exact @iris_shape. Qed.
Print Assumptions C155_iris_shape.
Theorem C155_trees_shape : forall (F : Type) (N : Num F),
  mwf (ds_data (@trees_load F N)) /\ nrows (ds_data (@trees_load F N)) = 31 /\ mcols (ds_data (@trees_load F N)) = 2 /\ length (ds_target (@trees_load F N)) = 31.
Proof. exact @trees_shape. Qed.
Print Assumptions C155_trees_shape.
(** The quotients that stand for the literals are, in binary64, the numbers nearest to the decimals. *)
Theorem C155_literals : forall k, In k (concat iris_table ++ map fst trees_table ++ trees_volume) -> is_real (@tenths B64 NumB64 k) (nearest (INR k / 10)).
Proof. exact literals. Qed.
Print Assumptions C155_literals.
Example C155_literals_ex : In 51 (concat iris_table ++ map fst trees_table ++ trees_volume).
Proof. now left. Qed.
(** The data vary enough for least squares: with exact solvers training succeeds. *)
Theorem C155_trains : (forall solve (self : LinRegressor R), solver_exact solve -> snd (lr_train solve self trees_X (ds_target trees_load)) = Ok tt) /\
  (forall solve (self : LinRegressor R) y, solver_exact solve -> length y = 150%nat -> snd (lr_train solve self iris_X y) = Ok tt) /\
  (forall inverse cr (self : GenLinearModel R) y, inverse_exact inverse -> crate_family 150 cr -> length y = 150%nat -> snd (glm_train inverse cr self iris_X y) = Ok tt).
Proof. exact data_trains. Qed.
Print Assumptions C155_trains.
Example C155_trains_ex : solver_exact solve_any /\ inverse_exact inverse_any /\ crate_family 150 Bernoulli.
Proof. exact (conj solve_any_exact (conj inverse_any_exact (cf_bernoulli 150))). Qed.

(** C156: the iris species. *)
Theorem C156_one_neighbour : forall (s0 : option (matrix R)) (t0 : option (list nat)),
  exists c', knn_train brute_builder {| knn_k := 1; knn_searcher := s0; knn_target := t0 |} iris_X (ds_target (@iris_load R NumR)) = (c', Ok tt) /\
    knn_predict (brute_search (F := R)) c' iris_X = Ok (ds_target (@iris_load R NumR)).
Proof. exact iris_recall. Qed.
Print Assumptions C156_one_neighbour.
Theorem C156_setosa : forall gd (self : LogisticRegressor R), (/ 10 ^ 12 <= gd_alpha gd <= 1 / 32)%R -> (32100 < gd_alpha gd * INR (gd_iters gd))%R ->
  let y := is_species 0 (ds_target (@iris_load R NumR)) in
  exists self' out, log_train (gd_optimize gd) self iris_X y = (self', Ok tt) /\ log_predict self' iris_X = Ok out /\ all_right y out.
Proof. exact iris_setosa. Qed.
Print Assumptions C156_setosa.
Example C156_setosa_ex : (/ 10 ^ 12 <= gd_alpha iris_gd <= 1 / 32)%R /\ (32100 < gd_alpha iris_gd * INR (gd_iters iris_gd))%R.
Proof. exact iris_gd_ok. Qed.
Theorem C156_versicolor_virginica : forall (self : LogisticRegressor R) out, log_predict self iris_X12 = Ok out -> ~ all_right iris_y12 out.
Proof. exact iris_not_separable. Qed.
Print Assumptions C156_versicolor_virginica.
Example C156_versicolor_virginica_ex : exists out, log_predict {| log_parameters := Some [0; 1; 2; 3; 4]%R |} iris_X12 = Ok out.
Proof. exact iris12_case. Qed.
