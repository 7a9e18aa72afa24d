# Formal model of rusty-machine in Rocq/Coq 8.16.1

(plan written before the proofs; the sections "Status" and "Findings" are updated as work proceeds)

## Approach

* The Rust code in `/repo/src` is transcribed function by function into total Gallina functions
  (`rocq/theories/Model_*.v`).  Each definition cites the file and lines it models and says where it simplifies.
* Panics, `Err(kind)` and non-termination are explicit: `res A := Ok a | Err kind | Panic`, loops that need not
  terminate take fuel and answer `None` when it runs out (theorems either exhibit fuel or quantify over all fuel).
* `&mut self` methods return the new state.  Random number generators are oracles: the theorem quantifies over every
  list of in-range choices (uniformity is a counting statement over all choice vectors).
* Arithmetic is a parameter: models are written once over a record `Num F` of operations (no laws) and instantiated at
    - `R` : exact real arithmetic (Coq's axiomatised reals),
    - `X` : reals extended with +inf, -inf and NaN following IEEE rules (exact, unsigned zero, no rounding/overflow),
      used wherever the code divides by something that may be zero, or tests `is_finite`/`is_nan`,
    - `B64` : Flocq's executable IEEE-754 binary64 with round-to-nearest-even, used for running the repository's unit-test values,
      for refutations, and for theorems about rounding-sensitive control flow (k-nearest-neighbour search).
* A matrix is its list of rows plus its number of columns (row-major storage is modelled only where the code uses it).
* rulinalg is not in `/repo`; its operations are modelled from its documented behaviour (`Linalg.v`), and decompositions and solvers
  (`solve`, `inverse`, `cholesky`, `svd`, `det`) are oracles: theorems assume only that a returned answer is an answer.
  C143-C146 also assume exact solvers, which do answer when the matrix is regular; such solvers are shown to exist.
* Specifications are in `Spec_*.v`, proofs in `Proof_*.v`, and the final theorems in `Props_*.v`,
  each closed by `exact`, followed by `Print Assumptions`, next to an `Example` showing its hypotheses can be met.

## Trusted base

* The Coq 8.16.1 kernel.
* The axioms below, all from the standard library; no others, and none of our own.  The table is produced by
  `tools/assumptions.py` from `Print Assumptions`, which also stands beneath every theorem in `Props_*.v`.
* The transcription of the Rust code (next section), the model of rulinalg (`Linalg.v`) and of the Rust standard library
  (stable `sort_by`, `BTreeMap` order, `HashMap` used only for counting, `Vec` operations).
* The reading of Rust's `f64`.  Theorems say at which arithmetic they hold: any `Num` (no laws at all), `R`, `X`, or `B64`.
  Theorems at `R` say nothing about rounding; theorems at `X` cover infinities and NaN but not rounding, overflow or signed zero.

### What Print Assumptions lists for each theorem

<!-- assumptions -->
* **closed under the global context** (135 theorems): C01_confusion_matrix_counts, C02_confusion_matrix_labels, C03_folds_partition, C04_k_fold_validate, C05_memoryless_models_partial, C09_in_place_permutes, C106_clusterers, C106_const_mean, C106_gmm, C106_gp, C106_knn, C106_mlp, C106_naive_bayes, C106_nnet, C106_pca, C106_regressors, C106_svm, C106_transforms, C107_exchange_scores, C107_exchange_table, C118_const_mean, C118_gp, C11_reservoir_sample_valid, C122_covariance, C12_shuffler_permutes_rows, C131_order_gd, C147_any_arithmetic, C148_moves_weights, C150_refuted_any_narrow_query, C151_brute_force, C151_classifiers, C151_gradients, C151_initialisers, C151_networks, C151_pca, C151_tree_building, C151_tree_search, C151_tree_untrained, C155_iris_shape, C155_trees_shape, C161_tree_sizes, C170_narrow_query, C170_wide_classifier, C170_wide_query, C172_one_cluster, C172_one_cluster_predict, C188_batches_add, C188_labels_chosen, C188_matrix_renamed, C188_matrix_renamed_in_order, C188_scores_renamed, C192_neighbours, C195_bernoulli, C195_gaussian, C195_multinomial, C22_tree_results_genuine, C23_built_trees_are_sound, C24_training, C24_untrained, C24_vote_over_any_searcher, C33_one_hot_argmax, C33_untrained, C38_failed_train_keeps_model, C38_target_count, C40_untrained, C47_honest_layers, C47_layout, C47_mlp, C47_mlp_widths, C47_optimisers_keep_length, C48_errors, C48_first_layer, C48_next_layer, C48_no_layer, C50_remove_first_col, C52_adagrad, C52_no_panic, C52_rmsprop, C52_sgd, C54_evaluations, C55_refuted_many_targets, C55_training_succeeds, C55_untrained, C55_width, C56_width, C57_panics, C58_only_error, C58_refuted_wide, C58_too_many_components, C58_untrained, C58_wrong_width, C60_panics, C62_refuted_dbscan, C69_errors, C72_gd_steps, C77_failed_train_keeps_model, C77_singular_panics, C77_sizes_checked, C79_failed_train_keeps_model, C79_failure_is_decomposition, C79_target_count, C90_dbscan, C90_glm, C90_gp, C90_kmeans, C90_knn_brute, C90_knn_tree, C90_lin_reg, C90_logistic_reg, C90_naive_bayes, C90_pca, C90_svm, C91_glm, C91_gmm, C91_gp, C91_kmeans, C91_knn, C91_lin_reg, C91_logistic_reg, C91_never_fail, C91_pca, C92_dbscan, C92_glm, C92_gmm, C92_gp, C92_kmeans, C92_knn, C92_lin_reg, C92_logistic_reg, C92_naive_bayes, C92_pca, C92_pca_components, C92_svm, C93_fold_scores, C93_knn

* **`ClassicalDedekindReals.sig_forall_dec`** (2 theorems): C117_training_rows, C150_refuted_custom_layer

* **`FunctionalExtensionality.functional_extensionality_dep`** (2 theorems): C118_svm, C131_order_stochastic

* **`ClassicalDedekindReals.sig_forall_dec`, `FunctionalExtensionality.functional_extensionality_dep`** (26 theorems): C09_in_place_uniform, C105_relative_error_small, C10_fisher_yates_permutes, C10_fisher_yates_uniform, C117_column_order, C117_units, C118_column_order, C11_reservoir_inclusion_uniform, C11_reservoir_subsets_uniform, C12_shuffler_uniform, C158_mean_of_scores, C158_pooled_scores, C158_samples_alike, C158_splits_equally_likely, C158_splits_ignore_data, C178_forgy, C178_forgy_limit, C178_random_partition, C183_draws_exist, C189_unbiased, C189_variance, C31_forgy, C34_gaussian_lonely_class, C57_refuted_linear_truncates, C79_posterior_variance, C86_mean_zero

* **`ClassicalDedekindReals.sig_forall_dec`, `ClassicalDedekindReals.sig_not_dec`, `FunctionalExtensionality.functional_extensionality_dep`** (242 theorems): C05_refuted_nnet, C06_accuracy_range, C06_accuracy_value, C06_row_accuracy, C06_rows_compared, C07_f1_harmonic_mean, C07_two_class_scores, C08_neg_mean_squared_error, C107_accuracy_is_trace, C107_exchange_f1, C107_two_class_table, C110_brute_force, C110_classifier, C110_dbscan, C110_similarities, C111_balltree, C111_brute_force, C111_kdtree, C112_depth_reached, C114_minmax_twice, C114_minmax_units, C114_normalizer_units, C114_standardizer_twice, C114_standardizer_units, C117_features, C117_repeated_data, C117_targets, C118_linear_sees_moves, C118_moves, C120_bracket, C120_cubic, C120_extrapolation, C120_extrapolation_bounds, C120_parabola, C120_progress, C120_steps, C121_adagrad, C121_sgd, C122_linear, C122_solvable, C122_variance, C124_centroids_move, C124_forgy, C124_kmeanspp, C124_random_partition, C124_same_clusters, C125_next_centroid_law, C126_means_unique, C128_no_worse, C129_stationary, C130_linear_rate, C130_regression, C131_conjugate_gradients, C131_gradient_descent, C131_linear_regression, C131_reordered_features, C131_stochastic, C133_jointly_optimal, C134_distances, C135_penalised_least_squares, C136_linreg, C136_scaling_total, C137_dbscan, C137_kmeans, C137_knn, C137_linreg, C137_motion, C139_same_passes, C13_minmax_range, C140_fixed_point, C141_normal_is_default, C143_least_squares_trains, C144_gp_trains, C144_posterior, C145_exact_decomposition_exists, C147_pca_trains, C148_predictions, C14_fitted_scalers_are_usable, C14_minmax_inverse, C150_refuted_no_neighbours, C150_refuted_parameter_count, C150_refuted_pca_after_panic, C153_built, C154_own_rows, C156_one_neighbour, C158_library_scores, C15_minmax_rejects, C160_mse_errors, C160_mse_least, C161_depth_is_reached, C162_gauss_markov, C162_only_best, C162_residual_variance, C162_residuals, C163_leave_one_out, C163_leave_one_out_trains, C163_leverages, C164_linear, C164_neighbours, C164_network, C164_targets, C165_depth, C169_all_rows_vote, C169_fewer_neighbours, C169_more_rows, C16_standardizer_moments, C16_standardizer_rejects, C171_glm_normal, C172_column_means, C174_descent, C174_train, C179_kmeans, C179_linear, C179_svm, C17_fitted_standardizers_are_usable, C17_refuted_constant_column, C17_standardizer_inverse, C180_kmeans, C180_linear, C180_mean_squared_error, C180_minmax, C180_scores, C180_standardizer, C181_predictions, C183_gradients, C183_outputs, C183_signal_sizes, C183_weights, C184_feature, C184_feature_trains, C184_never_worse, C184_single_closed_form, C184_single_trains, C184_uncorrelated, C185_copies, C185_single_linkage, C186_posterior, C186_predict, C188_accuracy_pools, C18_normalizer_rejects, C18_normalizer_unit_rows, C190_refuted_svm, C192_linear, C192_svm, C193_kmeans, C193_linear, C193_process, C194_covariance, C194_mean, C194_not_linear, C196_neighbour, C197_accuracy, C197_mixture, C197_root_mean_squared_error, C197_vote, C198_one_cluster, C198_only_noise, C198_own_clusters, C19_brute_force, C23_built_ball_trees_are_sound, C24_classifier_majority, C25_components, C29_closest_centroid, C30_iteration, C30_step_never_increases, C30_train_makes_steps, C30_train_never_increases, C31_kmeanspp, C31_random_partition, C34_priors, C37_refuted_nnet, C37_refuted_pca, C38_predict_is_affine, C38_train_is_least_squares, C39_lin_reg_gradient, C41_identity, C41_predict, C43_normal_fixed_point, C44_refuted_mse_gradient, C45_l1, C45_none, C45_refuted_l2, C46_linear, C48_value, C51_descent, C51_quadratic, C51_refuted_zero_cost_start, C51_result_no_worse, C53_refuted_adagrad_tau_zero, C53_rmsprop, C53_rmsprop_total, C54_never_worse, C54_refuted_nan_cost, C55_coefficients, C55_predict, C55_refuted_zero_iterations, C56_coefficients, C56_interpolates, C56_posterior, C56_predict, C57_linear_psd, C57_multiquadric_not_psd, C57_product_psd, C57_sum_psd, C57_symmetric_combinations, C58_refuted_history, C59_new, C59_refuted_zero_weights, C59_with_weights_errors, C59_with_weights_normalises, C61_constructors, C61_default, C63_mse_gradient_times_rows, C63_mse_gradient_vector, C64_balltree_exact, C64_kdtree_exact, C65_termination_characterised, C68_finite_iff_nonempty, C69_kmeanspp_succeeds_iff, C72_eps, C73_adagrad_step, C73_adagrad_total, C74_refuted_diverges, C75_scaled_data, C80_refuted, C81_constant_classifier, C81_ignored_rows, C81_share_of_steps, C85_usable_histories, C85_value, C86_principal, C89_stationary_start, C94_multiquadric_never_psd, C95_convex_rate, C96_linear_rate, C98_reaches_fixed_point, C98_stop_rule, C98_tiny_data_stops_early, C99_kmeans, C99_linear, C99_mean_squared_error, C99_transforms

* **`ClassicalDedekindReals.sig_forall_dec`, `ClassicalDedekindReals.sig_not_dec`, `Classical_Prop.classic`, `FunctionalExtensionality.functional_extensionality_dep`** (279 theorems): C100_accuracy, C100_accuracy_ranks, C100_two_class, C101_range, C101_symmetric, C101_symmetric_combinations, C102_neg_mean_squared_error, C102_zero_score_of_different_outputs, C103_brute_force_true_distances, C103_kdtree_true_distances, C104_kmeans_true_distances, C105_linear_prediction, C108_larger_eps_or_fewer_points, C109_above_smaller_eps, C109_below_larger_eps, C109_exact_when_separated, C111_brute_force_binary64, C111_kdtree_binary64, C112_depth_enough, C113_cdf_accuracy, C115_minmax_order, C115_minmax_range, C115_minmax_round_trip, C115_normalizer_length, C115_standardizer_order, C115_tiny_and_huge_rows, C116_adagrad, C116_dbscan, C116_gmm_nan_accepted, C116_gmm_weights, C116_gradient_desc, C116_rmsprop, C116_stochastic_gd, C117_features_glm, C117_targets_glm, C118_gp_isometric, C118_gp_rigid, C118_isometric, C118_rigid, C118_svm_isometric, C118_svm_rigid, C119_accuracy, C119_cost_nan, C119_cost_nan_one_row, C119_derivative, C119_monotone, C119_predictions, C119_range, C119_saturates, C119_zero, C123_bernoulli_coding, C123_class_names, C123_feature_order, C123_gaussian_units, C126_seeding_competitive, C127_refuted_default, C131_logistic_regression, C132_refuted_mirrored_feature, C132_same_loss, C136_glm, C136_naive_bayes, C137_glm, C137_gp, C137_svm, C138_poisson, C138_refuted_units, C139_frames, C139_passes, C13_refuted_binary64_overflow, C13_refuted_binary64_rounding, C140_refuted_training, C141_weighted_least_squares, C142_exception, C142_rigid, C142_train, C145_gmm_trains, C146_glm_trains, C147_decomposition_exists, C147_decompositions_exist, C148_training, C149_constant_start, C149_stay_alike, C150_refuted_narrow_query, C152_all_right, C152_no_best_fit, C153_linear_gradient, C153_linear_predictions, C153_linear_training, C153_logistic_gradient, C153_logistic_predictions, C153_logistic_training, C154_own_rows_binary64, C154_rounding_matters, C155_literals, C155_trains, C156_setosa, C156_versicolor_virginica, C157_best_fit_exists, C157_glm, C157_iris, C157_training_nears_best_fit, C159_bernoulli, C159_gaussian, C159_multinomial, C160_cross_entropy_errors, C160_cross_entropy_least, C160_logistic_accuracy, C164_activations, C164_logistic, C166_classifier, C166_dbscan_predict, C166_dbscan_row_is_noise, C166_early_row_panics, C166_first_row_wins, C166_later_row_ignored, C166_tree_hangs, C167_everything_in_cluster_zero, C167_kmeanspp_refuses, C168_bernoulli, C168_gaussian, C168_multinomial, C171_best_fit, C171_excess, C171_glm_poisson, C171_training, C172_one_component, C172_one_component_predict, C173_linear_predict, C173_linear_train, C173_logistic_predict, C173_logistic_train, C175_answers, C175_kernels, C175_learns_nothing, C176_glm, C176_gp, C176_linear, C176_logistic, C176_nnet, C176_pca, C176_svm, C177_exponential, C177_gaussian, C177_gaussian_cdf, C177_memoryless, C179_gaussian_splits, C179_links, C179_naive_bayes, C180_logistic, C181_activations, C181_training, C182_stay_zero, C182_zero_start, C185_more_rows, C185_rows_apart, C187_gradient_is_sum, C187_repeated_gradient, C187_repeated_training, C190_refuted_glm, C190_refuted_logistic, C191_best_fit, C191_descent, C191_loss, C191_predict, C192_normal, C192_poisson, C193_glm, C193_logistic, C194_exponential, C194_kernel, C194_rational_quadratic, C196_classifiers, C196_hidden_layer, C196_regression, C196_single_layer, C19_brute_force_bad_k, C19_brute_force_binary64, C20_refuted_too_few, C20_refuted_wrong_row, C21_refuted_overflow, C21_refuted_rounding, C21_refuted_too_few, C21_refuted_wrong_row, C22_number_systems, C23_refuted_adjacent_numbers, C25_components_binary64, C26_refuted_border_row, C27_each_row_visited_once, C28_refuted_stale_panic, C28_refuted_stale_rows, C29_closest_centroid_binary64, C29_untrained_or_wrong_width, C31_checks, C32_refuted_collapse, C32_refuted_duplicate_rows, C32_refuted_kmeanspp_panic, C33_bernoulli_map, C33_gaussian_map, C33_multinomial_map, C34_bernoulli, C34_gaussian, C34_multinomial, C35_multinomial, C35_refuted_gaussian_bernoulli, C36_refuted_naive_bayes, C37_refuted_dbscan, C37_refuted_gmm, C39_logistic_gradient, C40_predictions_are_probabilities, C41_bernoulli_means, C41_log, C41_logit, C41_poisson_means, C42_normal_is_least_squares, C43_bernoulli_fixed_point_partial, C43_poisson_fixed_point, C43_refuted_bernoulli_clipping, C43_refuted_poisson_stops, C44_cross_entropy_value, C46_exp, C46_sigmoid, C46_tanh, C49_default_one_row, C49_one_row, C49_refuted_batches, C49_refuted_l2, C57_polynomial_psd, C57_squared_exp_psd, C57_symmetric, C59_predict, C59_refuted_zero_weight, C59_retrain, C59_train, C60_cdf, C60_pdf_logpdf, C61_cdf_shape, C61_logpdf, C61_pdf, C61_pdf_shape, C61_refuted_accuracy, C62_refuted_nnet, C63_cross_entropy_gradient_times_rows, C63_cross_entropy_gradient_vector, C64_kdtree_exact_binary64, C65_equal_rows_loop, C66_border_rows_are_noise, C67_errors, C67_nearest_training_row, C70_bernoulli, C70_gaussian, C71_elastic_net, C71_l2_squared_norm, C76_poisson_is_weighted_least_squares, C78_exponential, C78_rational_quadratic, C78_squared_exp, C82_exponential, C82_gaussian, C83_crate_activations, C83_gradient, C84_gd_train, C84_gradient_panics, C84_stochastic_train, C87_posterior, C87_round, C87_start, C88_constant_column, C88_few_rows, C94_exponential_psd, C94_hyper_tan_not_psd, C94_rational_quadratic_psd, C96_logistic_rate, C97_round, C97_train, C99_dbscan, C99_glm, C99_logistic, C99_naive_bayes, C99_scores

<!-- /assumptions -->

## What is modelled

| Rust file | model | remarks |
|-----------|-------|---------|
| `analysis/confusion_matrix.rs` | `Model_Confusion` | labels from any total order; the `fmt` wrapper is not modelled |
| `analysis/cross_validation.rs` | `Model_CrossVal` | `Folds` iterator as a list; the model is any state-passing train/predict pair |
| `analysis/score.rs` | `Model_Score`, `Model_Cost` | all scores |
| `data/transforms/{minmax,standardize,normalize,shuffle}.rs` | `Model_Transforms`, `Model_Rand` | fit, transform, inv_transform; element type `f64` only |
| `learning/toolkit/rand_utils.rs` | `Model_Rand` | the generator is an oracle; `unsafe` initialisation of `fisher_yates` modelled with uninitialised cells |
| `learning/toolkit/{cost_fn,activ_fn,regularization,kernel}.rs` | `Model_Cost`, `Model_Toolkit`, `Model_Kernel` | all implementations |
| `learning/knn/*.rs` | `Model_KNN` | brute force, KD-tree, ball tree, build and search, classifier |
| `learning/dbscan.rs`, `k_means.rs`, `naive_bayes.rs` | `Model_DBSCAN`, `Model_KMeans`, `Model_NaiveBayes` | complete |
| `learning/lin_reg.rs`, `logistic_reg.rs`, `glm.rs` | `Model_Regression`, `Model_GLM` | linear solver and inverse are oracles |
| `learning/optim/grad_desc.rs`, `fmincg.rs` | `Model_Optim`, `Model_CG` | all four gradient methods, conjugate gradients |
| `learning/nnet/*.rs` | `Model_NNet` | layers are records, so user-defined layers are included; default weights are oracle draws |
| `learning/svm.rs`, `gp.rs`, `pca.rs`, `gmm.rs` | `Model_SVM`, `Model_GP`, `Model_PCA`, `Model_GMM` | Cholesky, triangular solves, svd, inverse and determinant are oracles |
| `stats/dist/{gaussian,exponential}.rs` | `Model_Dist` | the normal and exponential draws of the `rand` crate are inputs |
| the `unsafe` blocks of `knn`, `pca.rs`, `nnet/mod.rs`, `k_means.rs` once more | `Model_Unsafe` | undefined behaviour is told apart from panics; debug and release builds; those of `rand_utils.rs` and `dbscan.rs` (in range by C10 and C25: the checked model never fails) are not repeated |
| `datasets/{mod,iris,trees}.rs` | `Model_Datasets` | the tables as tenths; the `matrix!` macro is a list of rows |
| several calls in a row | `Model_History` | a history is a list of train/setter calls |

Not modelled: `lib.rs`, `prelude.rs` and the `mod.rs` files that only re-export or declare
traits, `learning/error.rs` beyond the error kind, `Display`/`Debug`/`Clone`, benches, examples and tests, the memory behaviour of
the code (allocation failure, the machine's stack itself: the nesting of recursive calls is bounded by C161 for the trees and C112 for DBSCAN), integer overflow of `usize`/`i32`
(`fmincg` casts its limits to `i32`: the theorems assume limits below 2^31), the `rand` crate's generators themselves, and the numerical
accuracy of rulinalg's decompositions.

## Plan per property

| id | plan |
|----|------|
| C01,C02 | `Model_Confusion` over any decidable total order; theorem: entries equal counts, panics characterised |
| C03 | `Model_CrossVal`: folds over a shuffled index list; partition by arithmetic lemmas; all n,k |
| C04,C05 | `k_fold_validate` over an arbitrary state-passing model with oracle shuffle; trace theorem; C05 refuted by a stateful model (warm-started nets) and proved for history-independent models |
| C06-C08 | `Model_Score` over `X`; equality with counting specs |
| C09-C12 | `Model_Rand`: shuffles driven by choice lists; `Permutation`, bijection onto permutations, counting for the reservoir |
| C13-C18 | `Model_Transforms` over `Num`; theorems at `X` |
| C19-C24 | `Model_Knn` over `Num`; candidate-list invariant, tree invariants; R and B64 theorems; refutations for the tree search and for termination |
| C25-C28 | `Model_Dbscan`: recursion with fuel; termination measure; reachability spec by an inductive relation; refutation for border points and stale data |
| C29-C32 | `Model_KMeans`: argmin spec, Lloyd inequality over R, initialisers with oracle |
| C33-C36 | `Model_NaiveBayes` over `Num` with exp/ln at R and X |
| C37 | history theorems for each model record; refutations for PCA, GMM, nets |
| C38-C43 | least squares by orthogonality; derivatives by Coquelicot's `is_derive`; solver as oracle |
| C44-C46 | `Model_Toolkit`: derivatives; refutations for missing 1/n and for the L2 cost |
| C47-C50 | `Model_NNet`: layers as a list; weight layout invariant; backprop by induction over layers (chain rule); in-place compaction loop |
| C51-C54 | `Model_Optim`: trace semantics of optimisers; line-search invariant for fmincg |
| C55-C57 | `Model_Svm`, `Model_Gp`, `Model_Kernel`; PSD closure |
| C58 | `Model_Pca` with svd oracle; shapes and stale flag |
| C59 | `Model_Gmm` |
| C60,C61 | `Model_Stats` |
| C62 | all model records |

Later properties (C63 onwards) were added while proving: C63-C93 are mostly the true statement behind a refuted one; C94 (kernels as
covariances) goes through Schoenberg's theorem for conditionally negative kernels; C95 and C96 (convergence of gradient descent) through the
standard smooth-convex argument, with smoothness and convexity of both regression costs proved for the modelled cost functions; C97 (EM never
lowers the likelihood) through Jensen's inequality, Cholesky factors and the inequality ln det A <= tr A - d; C98 (k-means
reaches a fixed point) through strict decrease of the cost and the finite number of assignments; C99 (row order) from the
associativity and commutativity of exact addition, and for DBSCAN from C25;
C100-C105 (binary64 results against exact ones) through Flocq's error lemmas and a small calculus of accumulated relative and absolute errors (`B64Err`);
C106 (answers are row by row) through one lemma on `rmap` over the rows and a composition lemma for networks; C107 (scores against the confusion matrix) by counting;
C108-C110 and C112 (DBSCAN under changes of radius, rounding and geometry; depth of its recursion) from C25 and uniqueness of the labelling it describes, the depth by following
the run on points in a line; C110 for neighbours because the search only compares distances; C111 (one neighbour) from C19 and C64;
C113 (accuracy of the Gaussian cdf) by monotonicity between the 5632 points of a grid, with exponentials and integral bounded in fixed-point arithmetic on `Z` (`vm_compute`),
and an explicit bound of the tail, C114 (units) by computing the fitted scalers of both data sets from the column extremes / moments, C115 (transforms in
binary64) by a forward error analysis of one cell (Flocq), monotonicity of rounding, and the triangle inequality for the length of a row,
C116 (constructor checks) by cases on the binary64 value, C117 (least squares under changes of units) from C38/C42 and uniqueness of the fitted values, C118 (kernel models under rigid motions) from congruence of the models in the kernel and induction on the kernel expressions, C119 (logistic predictions in binary64) from monotonicity of rounding, C120 (the line search of `ConjugateGD`) from an invariant that keeps the search on the line and algebra on the fitted polynomials, C121 (regret of the stochastic optimisers) from per-coordinate telescoping along the epochs of C52, C122 (Gaussian processes under more data, less noise and other targets) from the posterior variance as the least mean squared error of a linear predictor, C123 (naive Bayes under other units, orders, codings and names) from the maximum-posterior theorems C33 and the log-likelihood of the rewritten data, which differs by the same amount for every class; C124 (k-means under motions of the space) from a relation between the two runs, row by row: moved and finite, or NaN in both; C125, C126 (k-means++) from the integral of the step function that the sampling loop computes and the argument of Arthur and Vassilvitskii, by induction over the choices that are left; C127 by running the model, C128 by the inequality of C30 for the clusters that are left; C129, C130 (gradient descent without convexity, with strong convexity) from the descent lemma along the path; C131 (optimisers in another frame) from a simulation: a map that keeps inner products is linear, so the two runs stay related; C132 by running one step of the model in both frames; C133 (PCA is jointly optimal) by the argument of Ky Fan, Bessel's inequality and Gram-Schmidt, C134 by Bessel and Parseval; C135 (Gaussian processes as penalised least squares) by bilinearity of the kernel inner product on finite expansions; C136, C137 (preprocessing pipelines) by showing that a fitted scaler is a change of units and that PCA with all components is a rigid motion, then C117, C123, C110, C118, C124; C138 by running the model on two rows in two units, C139 (passes of a GLM in two frames) by induction over the passes, from uniqueness of the weighted least-squares fit; C140, C141 (families with the default methods of `Criterion`) from the normal equations of a pass, as C43 and C76; C142 (mixture models in another frame) by induction over the rounds of expectation maximisation: densities change by the factor 1/|det A| in every component, so responsibilities stay and the log-likelihood shifts by a constant. C143-C146 (when training succeeds) assume exact solvers, which answer
whenever the matrix is regular (or positive definite).  Gram matrices of independent columns with positive weights are
positive definite; for mixtures this holds in every round because responsibilities are positive.  `Proof_Det` builds the
determinant of every size by induction, `Proof_Inverse` and `Proof_Oracles` build inverses, Cholesky factors and exact
solvers; `C145_exact_decomposition_exists` states that the assumptions of C59, C87, C97, C142 and C145 can be met in every size.
C147 (PCA training) unfolds the model; `Proof_Spectral` proves that every real matrix has a singular value decomposition
(maximum of the quadratic form on the unit sphere, deflation, completion of orthonormal families), so the assumption `svd_sound` of C58, C85, C86, C133, C134 and C147 can be met on every data set.
C148, C149 (numbering of the units of a network): predictions by induction over the layers, gradients because they are partial derivatives (C83) of a cost that does not change, training by C131.
C150, C151 (memory safety): `Model_Unsafe` repeats the functions with `unsafe` blocks with a separate outcome for undefined behaviour and the build profile as an argument;
the theorems say that it agrees with the checked model, by bounds on the indices that hold in any arithmetic.
C152 (separable data): the rate of C96 against the separating function scaled so that its loss is a quarter of one row's share; a wrongly classified row alone costs more than what is left.
C153 (network without hidden layers): the predictions are unfolded; the gradients agree because both are partial derivatives (C39, C83) of the same function; training by induction over the iterations.
C154 (DBSCAN on its own rows): the nearest row is a copy of the row asked about, and copies are core together and linked by a chain.
C155, C156 (data sets): the tables are copied into `Model_Datasets` by a script; their properties are checked by computation in the kernel and combined with C111, C143, C146 and C152;
that two species cannot be separated follows from a point that is a weighted mean of three rows of each.
C157 (a best logistic fit exists exactly when the classes overlap): Farkas' and Stiemke's lemmas for finitely many linear functionals bound the parameters of every sublevel set of the loss, strong convexity on that set makes the pure descent path converge to the only minimiser, and the rate of C96 carries over to the trained parameters; the existence half assumes independent columns. C158 (cross validation treats all samples alike): the splits alone are the random program `random_folds`; the uniform law of the shuffle gives the law of each split, invariance of that law under swapping two samples gives the chance of being tested, and the log of C04 with one lookup table of answers gives the pooling identity. C159 (naive Bayes training maximises a smoothed likelihood): the likelihood splits into one term per class and feature, each maximised by Gibbs' inequality or its normal counterpart, both from ln x <= x - 1. C160 (costs against errors): both costs as sums over entries, the squared error term by term, the cross-entropy by Gibbs' inequality for two outcomes; an output on the wrong side of one half costs at least ln 2 (1/8 for the squared error), which bounds their number. C161 (size of search trees): every split leaves both sides non-empty, so induction on the fuel bounds depth and node count for any arithmetic; on the powers of two the box of the left part shrinks so that each split takes off the largest point. C162 states the theorem of Gauss and Markov for the model of `LinRegressor::train`, with a noise law of finitely many outcomes as an explicit weighted list; the proof works with the linear operator from targets to predictions that the normal equations define. C163 takes the leverages from the same operator (its trace is the number of parameters) and compares trainings with and without a row. C164 bounds how far answers move: Cauchy's inequality per layer for networks, the mean value theorem for the activations, projection for trained predictions, the triangle inequality for neighbour distances. C165 composes affine maps layer by layer. C166, C167 and C168 follow a NaN through the binary64 instances of the models: NaN spreads through sums and never wins a comparison, so searches skip it or get stuck on it; DBSCAN with and without the row is compared through C25's description of the labels. C169 reads the reported distances as order statistics (a distance is at most t exactly when enough rows are that near). C170 compares two runs of the search. C171 uses that the gradient of the logistic cost is the vector of mean differences, and smoothness and convexity of that cost (C96). C172: the loop of k-means is followed with the class list of all zeros; for mixtures the round theorem of C87 is applied with memberships that are all one. C173: a NaN in the data makes the first cost and gradient NaN in every entry, the stop test compares with NaN and never fires, and the parameters stay NaN. C174: the gradient of the cost at p is Z'Z(p - q)/n for every best fit q, so one step acts on an eigenvector by the factor 1 - alpha lambda; induction over the loop, with the stop test read off its last round. C175 (support vector machines with NaN in the training data) follows every draw of `svm_body` in binary64: a kernel value that is NaN makes the comparison of line 161 false, so no coefficient moves. C176 (NaN in, NaN out) is shown model by model with the NaN lemmas of C173. C177 (densities integrate to one) computes the Gaussian integral by differentiating ∫ exp(-t²(1+x²)/2)/(1+x²) under the integral sign; it also shows that `normal_cdf`, the specification of C61 and C113, is the mass below x. C178 (fair initialisers) computes the law of the rejection loop and of the assignment loop by induction on the draws. C179 compares the answers at two rows and at the rows between them: the linear scores are affine along the segment, squared distances and Gaussian log-densities with common variance are affine up to a term that is the same for every class, and the first best index survives averaging of two score lists. C180 repeats a data set: every sum over the samples is multiplied by the number of copies, which cancels wherever the code divides by the number of samples (and shows where it divides by that number minus one). C181 and C182 (signs of units): `Spec_Flip.v` says which units change sign and which weights do with them; the row function of the network is followed through a change of signs by induction on the layers, the gradient by the chain rule and the uniqueness of partial derivatives (C83), the optimisers as rigid changes (C131), except AdaGrad and RMSProp, whose accumulators do not change at all; C182 is the case of a start that the change leaves alone. C183 (starting weights): the expectation is any linear functional under which the draws have mean 0, variance 1 and no correlation (`Spec_Glorot.v`); answers and gradients are linear forms in the draws whose coefficients meet only in equal units; fair signs show that such draws exist. C184 (one feature, and one feature more): the fitted affine function is the one whose residuals are orthogonal to all affine functions (as for C162); the candidate built from the residuals of the new column satisfies this, and uniqueness follows from spanning. C185 (DBSCAN on more rows): C25 characterises the labels, so it is enough to compare core rows and chains of the two data sets and to use that such labels are unique. C186 (repeated samples in Gaussian processes): averaging the weights over the copies turns a solution of the large system into one of the small system, and the kernel sums agree. C187 (network gradients sample by sample): both costs are means of per-sample losses, so by C83's gradient theorem the batch gradient is the derivative of a sum. C188 (joined and relabelled scores): C02 gives every entry as a count, counts add up over joined lists; renaming commutes with every loop of the model, by induction. C189 (means of reservoir samples): first and second moments of the sum over the reservoir, by induction over the rest of the pool. C190 is refuted by concrete runs of the models: Bernoulli training on balanced data and one step of gradient descent, and by all runs of an SVM on two rows; C191 proves the symmetry of the cross-entropy and its gradient and reuses the rigid changes of C131. C192 follows from the linearity of C117, the weighted least squares of C76, the vote of C24 and the hit counts of C81. C193: the normal equations (linear), the balance conditions of C171 (logistic) and the linear system for alpha (Gaussian process, with zero weight for the new rows) hold with the new rows exactly when they hold without; for the generalised linear model the squared residuals of the new rows are zero at the old parameters, which therefore still minimise the sum. For k-means a row at a centroid is assigned to a centroid at distance zero and does not move the mean. C194: the answer minus the mean is a sum of kernel values times fixed weights, and the explained variance a bilinear form in kernel values with fixed coefficients, so both vanish with the kernel. C195: by cases on whether the row to be overwritten exists (the model rejects a class out of range for every width; with zero columns the code would do nothing, which the hypothesis excludes). C196: by C179 the crossing point would have to be answered in both ways; the nearest-neighbour half is C111 on the unit square. C197: triangle inequalities for the number of differing answers (induction over the lists) and for the Euclidean distance of the flattened matrices, and an identity entry by entry; accuracy and mean squared error come from C06 and C08. C198 reads the labels off the density components of C25 when all, none or only equal rows are near each other. Their plans are the corresponding rows above.

## Status

`MANIFEST.json` lists for every property its status and theorems.  A property whose natural statement the code violates keeps that
statement, has a `Cnn_refuted_...` theorem, status `partial`, and a companion property with what does hold.
`seeded/LOG.jsonl` records the faults seeded into scratch copies of the model and the theorems that failed to prove.

## Findings (where the code falls short of what a user would expect)

Those with a theorem in brackets are proved about the model; the others were seen while transcribing the code.

* **transforms** Rounding can put the smallest value below the requested range, and a column whose spread overflows is scaled by 0
  [C13_refuted_binary64_*].  `Standardizer` accepts a constant column and yields NaN [C17_refuted_constant_column].
  `MinMaxFitter` accepts a matrix without rows.
* **knn** The tree search may return fewer than k rows or miss a nearer row, because `add` drops candidates and pruning starts before
  k rows were found [C20_refuted_*, C21_refuted_*].  In binary64 the ball tree can miss even the single nearest row, by
  rounding or by overflow of the distance to a centre [C21_refuted_rounding, C21_refuted_overflow].  Tree construction loops for ever on `leafsize` equal rows or on adjacent floats
  [C23_refuted_*, C65].
  A query with fewer columns than the training data makes a tree search read past the end of the query, and a search for zero neighbours
  reads before an empty buffer in release builds: undefined behaviour from safe code [C150_refuted_*].
* **dbscan** Border points are never put in a cluster [C26_refuted_border_row].  Retraining with prediction disabled leaves the old rows
  next to the new labels [C28_refuted_*].  `predict` without predictive mode answers InvalidState [C62_refuted_dbscan].
  Training recurses as deep as a cluster is long, so many rows in a chain overflow the stack [C112_depth_reached].
* **k_means** A centroid that loses its rows becomes NaN; k-means++ panics with fewer than k different rows [C32_refuted_*, C69].
  When it is the first centroid, the NaN distance is never beaten, all rows move to that cluster, and training returns Ok with a
  worse objective than the starting centroids, also with the default k-means++ [C127_refuted_default]; losing another centroid is harmless [C128].
  The absolute tolerance 1e-14 stops training on small-scale data after one iteration [C98_tiny_data_stops_early].
* **nnet, pca** Undefined behaviour from safe code: a user-written layer whose `default_params` is shorter than its `param_shape`,
  `compute_grad` with another number of parameters than the layers hold (too many: the rest of the gradient is uninitialised), and
  `predict` of a PCA model whose second training panicked [C150_refuted_*].
* **score** `neg_mean_squared_error` of different matrices can be zero by underflow [C102_zero_score_of_different_outputs].
* **naive_bayes** An unseen class scores NaN and is answered [C35_refuted_gaussian_bernoulli].  `train` clears the model before it
  validates the data [C36_refuted_naive_bayes].
* **toolkit** Cost gradients lack the factor 1/rows [C44_refuted_mse_gradient].  The L2 cost is the norm, its gradient that of the squared norm
  [C45_refuted_l2].  `Linear` and `Polynomial` kernels silently truncate to the shorter vector [C57_refuted_linear_truncates].
  Multiquadric is not positive semidefinite.
* **optim** `GradientDesc` compares its first cost with 0 and returns a start of cost 0 at once [C51_refuted_zero_cost_start]; AdaGrad with tau = 0 makes
  NaN from a zero gradient [C53_refuted_adagrad_tau_zero]; `ConjugateGD` accepts a NaN cost and may end higher than it began [C54_refuted_nan_cost].
* **lin_reg** Training with the fixed step 0.3 diverges on badly scaled data [C74_refuted_diverges].
* **logistic_reg** One row that is classified correctly with a score of 40 or more makes the training cost of the whole batch NaN, because 0 * ln 0
  is computed [C119_cost_nan].
* **logistic_reg** All parameters start at 0.5, so the result of a fixed number of iterations depends on the sign convention (and rotation) of the
  features [C132_refuted_mirrored_feature]; linear regression starts from zeros and does not [C131_linear_regression].
* **glm** The stop test compares coefficients with an absolute 1e-10: with a feature measured in very small units training stops after its first pass and a
  prediction can move across one half [C138_refuted_units].  A user's family with the default methods is fitted to the raw targets whatever its link
  is, and the inverse link is then applied to that fit [C140_refuted_training, C141].  The working response lags one pass behind, so Poisson stops at a weighted least-squares fit of the counts [C43_refuted_poisson_stops, C76]. Bernoulli weights below 1e-5 are replaced, and the fixed points there are not maximum-likelihood estimates [C43_refuted_bernoulli_clipping]. `Binomial` has a private field and no constructor, so it is modelled but no property is stated of it.
* **svm** The Pegasos sum leaves out coefficients and targets, t starts at 0 [C80_refuted]; `optim_iters = 0` gives NaN; surplus targets make
  every `predict` panic [C55_refuted_*].
* **Normalizer** The length of a row is computed from the squares of its entries: a row of length 2^-600 is left as it is, one of length 2^600 is refused although its length is an ordinary number [C115_tiny_and_huge_rows].
* **stats** The Gaussian cdf is off by more than the documented 0.003 at 1.6 standard deviations [C61_refuted_accuracy]; at most by 0.0035 [C113].
* **nnet** `compute_grad` returns rows x the derivative of the data cost [C49_refuted_batches]; training panics instead of returning Err on shapes that do not
  fit [C84]; training starts from the stored weights, so cross-validation folds influence each other [C05_refuted_nnet]; an untrained network predicts.
* **pca** Trained on wide data with n < columns, every `predict` panics; the flag `inv` is never reset [C58_refuted_*].
* **gmm** A zero weight turns predictions into NaN [C59_refuted_*]; NaN weights are accepted [C116_gmm_nan_accepted]; constant columns or few rows make `train` panic [C88]; log-likelihood and weights
  survive retraining [C37_refuted_gmm]; the first stop test compares with a stored 0, so in some unit of measurement training does nothing [C142_exception].
* **NaN** A one-neighbour classifier whose first training row has a NaN answers every query with that row's target, other positions are ignored or panic [C166]; after
  k-means training with a NaN row (initialisers other than k-means++) everything is in cluster 0 although `train` returned Ok [C167]; `DBSCAN::predict` calls
  everything noise when the first training row has a NaN [C166_dbscan_predict]; a NaN as the first entry of the first row makes building a search tree run forever [C166_tree_hangs]; a NaN in a training row of class 0 makes naive Bayes answer class 0 always, in another class it makes that class unreachable, and a query with NaN gets class 0 [C168].
* **Nearest neighbours** Queries of the wrong width are not refused: brute-force search ignores the surplus columns of the query, or of the data [C170]; tree search reads outside the query [C150].
* **lin_reg** One NaN among the training values makes every parameter NaN although training returns Ok [C173]; with the fixed default step of 0.3, `train_with_optimization` moves away from the least-squares fit in every direction whose eigenvalue of Z'Z/n exceeds 20/3, for instance a feature with values around 4 [C174].
* **svm** One NaN in a training row: no coefficient ever changes, `train` returns Ok, and every answer is NaN [C175].
* **glm, logistic_reg** `GenLinearModel` with `Bernoulli` starts its working response at the means instead of at the linked means (glm.rs line 103), so on data with as many 0 as 1 at every feature value it stops after two passes with intercept 0.5 and answers 0.62 for class 1, whichever class is called 1. `LogisticRegressor` starts at 0.5 (logistic_reg.rs line 120), which also favours class 1 until converged [C190].
* **svm** With inputs 10 and -1, the linear kernel and at most 8 iterations, the query -1 is answered +1 for the targets (1, -1) and also for (-1, 1), whatever rows are drawn [C190].
* **glm** A Poisson model trained on counts that all equal c predicts exp(c) [C192].
