{
 "claims": [
  {
   "property": "C01",
   "status": "proved",
   "theorems": [
    "C01_confusion_matrix_counts"
   ],
   "note": ""
  },
  {
   "property": "C02",
   "status": "proved",
   "theorems": [
    "C02_confusion_matrix_labels"
   ],
   "note": ""
  },
  {
   "property": "C03",
   "status": "proved",
   "theorems": [
    "C03_folds_partition"
   ],
   "note": ""
  },
  {
   "property": "C04",
   "status": "proved",
   "theorems": [
    "C04_k_fold_validate"
   ],
   "note": ""
  },
  {
   "property": "C05",
   "status": "partial",
   "theorems": [
    "C05_memoryless_models_partial",
    "C05_refuted_nnet",
    "C05_refuted_nnet",
    "C93_fold_scores"
   ],
   "note": "Proved for memoryless models. Refuted for neural networks, which start from the stored weights (C05_refuted_nnet). C93 extends the positive part to every model replaced by retraining."
  },
  {
   "property": "C06",
   "status": "proved",
   "theorems": [
    "C06_accuracy_value",
    "C06_accuracy_range",
    "C06_row_accuracy",
    "C06_rows_compared"
   ],
   "note": ""
  },
  {
   "property": "C07",
   "status": "proved",
   "theorems": [
    "C07_two_class_scores",
    "C07_f1_harmonic_mean"
   ],
   "note": ""
  },
  {
   "property": "C08",
   "status": "proved",
   "theorems": [
    "C08_neg_mean_squared_error"
   ],
   "note": ""
  },
  {
   "property": "C09",
   "status": "proved",
   "theorems": [
    "C09_in_place_permutes",
    "C09_in_place_uniform"
   ],
   "note": ""
  },
  {
   "property": "C10",
   "status": "proved",
   "theorems": [
    "C10_fisher_yates_permutes",
    "C10_fisher_yates_uniform"
   ],
   "note": ""
  },
  {
   "property": "C11",
   "status": "proved",
   "theorems": [
    "C11_reservoir_sample_valid",
    "C11_reservoir_inclusion_uniform",
    "C11_reservoir_subsets_uniform"
   ],
   "note": ""
  },
  {
   "property": "C12",
   "status": "proved",
   "theorems": [
    "C12_shuffler_permutes_rows",
    "C12_shuffler_uniform"
   ],
   "note": ""
  },
  {
   "property": "C13",
   "status": "proved",
   "theorems": [
    "C13_minmax_range",
    "C13_refuted_binary64_rounding",
    "C13_refuted_binary64_overflow"
   ],
   "note": ""
  },
  {
   "property": "C14",
   "status": "proved",
   "theorems": [
    "C14_minmax_inverse",
    "C14_fitted_scalers_are_usable"
   ],
   "note": ""
  },
  {
   "property": "C15",
   "status": "proved",
   "theorems": [
    "C15_minmax_rejects"
   ],
   "note": ""
  },
  {
   "property": "C16",
   "status": "proved",
   "theorems": [
    "C16_standardizer_moments",
    "C16_standardizer_rejects"
   ],
   "note": ""
  },
  {
   "property": "C17",
   "status": "partial",
   "theorems": [
    "C17_standardizer_inverse",
    "C17_fitted_standardizers_are_usable",
    "C17_refuted_constant_column"
   ],
   "note": "Inverse and finiteness proved for data without constant columns. Refuted for constant columns: fit accepts them and transform yields NaN (C17_refuted_constant_column)."
  },
  {
   "property": "C18",
   "status": "proved",
   "theorems": [
    "C18_normalizer_unit_rows",
    "C18_normalizer_rejects"
   ],
   "note": ""
  },
  {
   "property": "C19",
   "status": "proved",
   "theorems": [
    "C19_brute_force",
    "C19_brute_force_binary64",
    "C19_brute_force_bad_k"
   ],
   "note": ""
  },
  {
   "property": "C20",
   "status": "partial",
   "theorems": [
    "C20_refuted_too_few",
    "C20_refuted_wrong_row",
    "C64_kdtree_exact",
    "C64_kdtree_exact_binary64"
   ],
   "note": "Refuted as stated: the search may return fewer than k rows or miss a nearer row (C20_refuted_*). What holds is C64."
  },
  {
   "property": "C21",
   "status": "partial",
   "theorems": [
    "C21_refuted_too_few",
    "C21_refuted_wrong_row",
    "C21_refuted_rounding",
    "C21_refuted_overflow",
    "C64_balltree_exact"
   ],
   "note": "Refuted as stated (C21_refuted_*). What holds is C64."
  },
  {
   "property": "C22",
   "status": "proved",
   "theorems": [
    "C22_tree_results_genuine",
    "C22_number_systems"
   ],
   "note": ""
  },
  {
   "property": "C23",
   "status": "partial",
   "theorems": [
    "C23_built_trees_are_sound",
    "C23_built_ball_trees_are_sound",
    "C23_refuted_adjacent_numbers",
    "C65_termination_characterised",
    "C65_equal_rows_loop"
   ],
   "note": "Soundness of built trees proved. Termination refuted: leafsize equal rows, or two adjacent binary64 numbers, loop for ever. What holds is C65."
  },
  {
   "property": "C24",
   "status": "proved",
   "theorems": [
    "C24_classifier_majority",
    "C24_vote_over_any_searcher",
    "C24_untrained",
    "C24_training"
   ],
   "note": ""
  },
  {
   "property": "C25",
   "status": "proved",
   "theorems": [
    "C25_components",
    "C25_components_binary64"
   ],
   "note": ""
  },
  {
   "property": "C26",
   "status": "partial",
   "theorems": [
    "C26_refuted_border_row",
    "C66_border_rows_are_noise"
   ],
   "note": "Refuted as stated (C26_refuted_border_row): border rows are never put in a cluster. What holds is C66."
  },
  {
   "property": "C27",
   "status": "proved",
   "theorems": [
    "C27_each_row_visited_once"
   ],
   "note": ""
  },
  {
   "property": "C28",
   "status": "partial",
   "theorems": [
    "C28_refuted_stale_rows",
    "C28_refuted_stale_panic",
    "C67_nearest_training_row",
    "C67_errors"
   ],
   "note": "Refuted for histories that retrain with prediction disabled and enable it again: the old rows are used with the new labels (wrong label or panic). What holds is C67."
  },
  {
   "property": "C29",
   "status": "proved",
   "theorems": [
    "C29_closest_centroid",
    "C29_closest_centroid_binary64",
    "C29_untrained_or_wrong_width"
   ],
   "note": ""
  },
  {
   "property": "C30",
   "status": "proved",
   "theorems": [
    "C30_step_never_increases",
    "C30_train_makes_steps",
    "C30_train_never_increases",
    "C30_iteration"
   ],
   "note": ""
  },
  {
   "property": "C31",
   "status": "proved",
   "theorems": [
    "C31_checks",
    "C31_forgy",
    "C31_random_partition",
    "C31_kmeanspp"
   ],
   "note": ""
  },
  {
   "property": "C32",
   "status": "partial",
   "theorems": [
    "C32_refuted_duplicate_rows",
    "C32_refuted_collapse",
    "C32_refuted_kmeanspp_panic",
    "C68_finite_iff_nonempty",
    "C30_train_makes_steps",
    "C69_kmeanspp_succeeds_iff"
   ],
   "note": "Refuted as stated (C32_refuted_*): a centroid that loses all its rows becomes NaN, and k-means++ panics with fewer than k different rows. What holds is C68, C69 and C30_train_makes_steps."
  },
  {
   "property": "C33",
   "status": "proved",
   "theorems": [
    "C33_one_hot_argmax",
    "C33_untrained",
    "C33_gaussian_map",
    "C33_bernoulli_map",
    "C33_multinomial_map"
   ],
   "note": ""
  },
  {
   "property": "C34",
   "status": "proved",
   "theorems": [
    "C34_gaussian_lonely_class",
    "C34_priors",
    "C34_gaussian",
    "C34_bernoulli",
    "C34_multinomial"
   ],
   "note": ""
  },
  {
   "property": "C35",
   "status": "partial",
   "theorems": [
    "C35_multinomial",
    "C35_refuted_gaussian_bernoulli",
    "C70_gaussian",
    "C70_bernoulli"
   ],
   "note": "Proved for Multinomial. Refuted for Gaussian and Bernoulli (C35_refuted_gaussian_bernoulli): an unseen class 0 scores NaN and is always answered. What holds is C70."
  },
  {
   "property": "C36",
   "status": "partial",
   "theorems": [
    "C36_refuted_naive_bayes",
    "C91_knn",
    "C91_kmeans",
    "C91_lin_reg",
    "C91_logistic_reg",
    "C91_glm",
    "C91_gp",
    "C91_pca",
    "C91_gmm",
    "C91_never_fail"
   ],
   "note": "Refuted for naive Bayes (C36_refuted_naive_bayes). Holds for all other models: C91."
  },
  {
   "property": "C37",
   "status": "partial",
   "theorems": [
    "C37_refuted_nnet",
    "C37_refuted_gmm",
    "C37_refuted_dbscan",
    "C37_refuted_pca",
    "C90_lin_reg",
    "C90_dbscan",
    "C90_pca"
   ],
   "note": "Refuted for neural networks, Gaussian mixtures, DBSCAN with changed predict mode, and PCA after wide data (C37_refuted_*). Holds for the other models: C90."
  },
  {
   "property": "C38",
   "status": "proved",
   "theorems": [
    "C38_train_is_least_squares",
    "C38_predict_is_affine",
    "C38_failed_train_keeps_model",
    "C38_target_count"
   ],
   "note": ""
  },
  {
   "property": "C39",
   "status": "proved",
   "theorems": [
    "C39_lin_reg_gradient",
    "C39_logistic_gradient"
   ],
   "note": ""
  },
  {
   "property": "C40",
   "status": "proved",
   "theorems": [
    "C40_predictions_are_probabilities",
    "C40_untrained"
   ],
   "note": ""
  },
  {
   "property": "C41",
   "status": "proved",
   "theorems": [
    "C41_logit",
    "C41_log",
    "C41_identity",
    "C41_predict",
    "C41_bernoulli_means",
    "C41_poisson_means"
   ],
   "note": ""
  },
  {
   "property": "C42",
   "status": "proved",
   "theorems": [
    "C42_normal_is_least_squares"
   ],
   "note": ""
  },
  {
   "property": "C43",
   "status": "partial",
   "theorems": [
    "C43_normal_fixed_point",
    "C43_poisson_fixed_point",
    "C43_bernoulli_fixed_point_partial",
    "C43_refuted_bernoulli_clipping",
    "C43_refuted_poisson_stops",
    "C76_poisson_is_weighted_least_squares"
   ],
   "note": "Fixed points of the iteration are maximum-likelihood estimates: proved for Normal and Poisson, and for Bernoulli away from the clipping thresholds; inside them it is refuted (C43_refuted_bernoulli_clipping). Also refuted for the code's own convergence test (C43_refuted_poisson_stops): the working response lags one pass behind, so a Poisson fit stops on its second pass. What is returned is C76."
  },
  {
   "property": "C44",
   "status": "partial",
   "theorems": [
    "C44_cross_entropy_value",
    "C44_refuted_mse_gradient",
    "C63_mse_gradient_times_rows",
    "C63_cross_entropy_gradient_times_rows"
   ],
   "note": "Refuted as stated for two or more rows (C44_refuted_mse_gradient): the gradients lack the factor 1/rows. What holds is C63."
  },
  {
   "property": "C45",
   "status": "partial",
   "theorems": [
    "C45_l1",
    "C45_none",
    "C45_refuted_l2",
    "C71_l2_squared_norm",
    "C71_elastic_net"
   ],
   "note": "Proved for L1 (away from zero) and None. Refuted for L2 and ElasticNet (C45_refuted_l2): the cost uses the norm and the gradient belongs to its square. What holds is C71."
  },
  {
   "property": "C46",
   "status": "proved",
   "theorems": [
    "C46_sigmoid",
    "C46_tanh",
    "C46_exp",
    "C46_linear"
   ],
   "note": ""
  },
  {
   "property": "C47",
   "status": "proved",
   "theorems": [
    "C47_layout",
    "C47_honest_layers",
    "C47_optimisers_keep_length",
    "C47_mlp",
    "C47_mlp_widths"
   ],
   "note": ""
  },
  {
   "property": "C48",
   "status": "proved",
   "theorems": [
    "C48_no_layer",
    "C48_first_layer",
    "C48_next_layer",
    "C48_value",
    "C48_errors"
   ],
   "note": ""
  },
  {
   "property": "C49",
   "status": "partial",
   "theorems": [
    "C49_one_row",
    "C49_default_one_row",
    "C49_refuted_batches",
    "C49_refuted_l2",
    "C83_gradient"
   ],
   "note": "Holds for one row without regularisation, which is how the stochastic optimisers call it (C49_one_row, C49_default_one_row). Refuted for every batch of two or more rows wherever the derivative is not zero, and with L2 regularisation. What holds is C83."
  },
  {
   "property": "C50",
   "status": "proved",
   "theorems": [
    "C50_remove_first_col"
   ],
   "note": ""
  },
  {
   "property": "C51",
   "status": "partial",
   "theorems": [
    "C51_refuted_zero_cost_start",
    "C51_descent",
    "C51_result_no_worse",
    "C51_quadratic",
    "C72_gd_steps",
    "C72_eps"
   ],
   "note": "Steps and descent proved. Refuted in the stopping rule (C51_refuted_zero_cost_start): the first cost is compared with 0, so a start of cost 0 is returned at once. What holds is C72."
  },
  {
   "property": "C52",
   "status": "proved",
   "theorems": [
    "C52_sgd",
    "C52_adagrad",
    "C52_rmsprop",
    "C52_no_panic"
   ],
   "note": ""
  },
  {
   "property": "C53",
   "status": "partial",
   "theorems": [
    "C53_rmsprop",
    "C53_rmsprop_total",
    "C53_refuted_adagrad_tau_zero",
    "C73_adagrad_step",
    "C73_adagrad_total"
   ],
   "note": "RMSProp proved. Refuted for AdaGrad with tau = 0 (C53_refuted_adagrad_tau_zero): 0/0 makes the parameters NaN. What holds is C73."
  },
  {
   "property": "C54",
   "status": "partial",
   "theorems": [
    "C54_evaluations",
    "C54_never_worse",
    "C54_refuted_nan_cost"
   ],
   "note": "The evaluation bound and termination hold for every arithmetic. The cost does not rise for costs that are never NaN with finite gradients (infinite costs allowed). Refuted as stated for arbitrary cost functions: a NaN cost on the way is accepted and lets the cost rise from 1 to 5 (C54_refuted_nan_cost). iters and max are assumed below 2^31 (the code casts them to i32)."
  },
  {
   "property": "C55",
   "status": "partial",
   "theorems": [
    "C55_coefficients",
    "C55_predict",
    "C55_untrained",
    "C55_width",
    "C55_training_succeeds",
    "C55_refuted_zero_iterations",
    "C55_refuted_many_targets"
   ],
   "note": "Proved for optim_iters > 0 and one target per row. Refuted otherwise: optim_iters = 0 (a public field) gives NaN coefficients and predictions; surplus targets are accepted by train and make every predict panic."
  },
  {
   "property": "C56",
   "status": "proved",
   "theorems": [
    "C56_coefficients",
    "C56_predict",
    "C56_interpolates",
    "C56_posterior",
    "C56_width"
   ],
   "note": ""
  },
  {
   "property": "C57",
   "status": "partial",
   "theorems": [
    "C57_symmetric",
    "C57_symmetric_combinations",
    "C57_linear_psd",
    "C57_polynomial_psd",
    "C57_squared_exp_psd",
    "C57_sum_psd",
    "C57_product_psd",
    "C57_multiquadric_not_psd",
    "C57_panics",
    "C57_refuted_linear_truncates"
   ],
   "note": "Symmetry, positive semidefiniteness and the closure under sums and products proved; 'panics iff dimensions differ' proved for the distance kernels and refuted for Linear (C57_refuted_linear_truncates): utils::dot stops at the shorter vector."
  },
  {
   "property": "C58",
   "status": "partial",
   "theorems": [
    "C58_untrained",
    "C58_too_many_components",
    "C58_only_error",
    "C58_wrong_width",
    "C58_refuted_wide",
    "C58_refuted_history",
    "C85_usable_histories",
    "C85_value"
   ],
   "note": "Errors proved for all histories. Refuted for wide training data with fewer components requested than columns (every predict panics) and for tall data after wide data (the flag inv is never reset: predict panics or multiplies by the transposed matrix). What holds is C85."
  },
  {
   "property": "C59",
   "status": "partial",
   "theorems": [
    "C59_with_weights_errors",
    "C59_with_weights_normalises",
    "C59_new",
    "C59_train",
    "C59_retrain",
    "C59_predict",
    "C59_refuted_zero_weights",
    "C59_refuted_zero_weight"
   ],
   "note": "Proved over the reals for weights that are all positive: construction, every training round, retraining and predict. Refuted for all-zero weights, which with_weights turns into NaN (C59_refuted_zero_weights), and for a single zero weight, whose component mean becomes 0/0 and turns every prediction into NaN (C59_refuted_zero_weight)."
  },
  {
   "property": "C60",
   "status": "proved",
   "theorems": [
    "C60_pdf_logpdf",
    "C60_cdf",
    "C60_panics"
   ],
   "note": ""
  },
  {
   "property": "C61",
   "status": "partial",
   "theorems": [
    "C61_logpdf",
    "C61_pdf",
    "C61_pdf_shape",
    "C61_cdf_shape",
    "C61_constructors",
    "C61_default",
    "C61_refuted_accuracy",
    "C113_cdf_accuracy"
   ],
   "note": "Everything but the accuracy of the cdf is proved. The documented accuracy of 0.003 is refuted (C61_refuted_accuracy): the error exceeds it at 1.6 standard deviations. The error is at most 0.0035 everywhere: C113."
  },
  {
   "property": "C62",
   "status": "partial",
   "theorems": [
    "C62_refuted_nnet",
    "C62_refuted_dbscan",
    "C92_knn",
    "C92_kmeans",
    "C92_dbscan",
    "C92_naive_bayes",
    "C92_lin_reg",
    "C92_logistic_reg",
    "C92_glm",
    "C92_gp",
    "C92_svm",
    "C92_pca",
    "C92_gmm"
   ],
   "note": "Refuted for neural networks (a fresh one predicts) and DBSCAN without predict mode (InvalidState). Holds for the others: C92."
  },
  {
   "property": "C63",
   "status": "proved",
   "theorems": [
    "C63_mse_gradient_times_rows",
    "C63_cross_entropy_gradient_times_rows",
    "C63_mse_gradient_vector",
    "C63_cross_entropy_gradient_vector"
   ],
   "note": ""
  },
  {
   "property": "C64",
   "status": "proved",
   "theorems": [
    "C64_kdtree_exact",
    "C64_kdtree_exact_binary64",
    "C64_balltree_exact"
   ],
   "note": ""
  },
  {
   "property": "C65",
   "status": "proved",
   "theorems": [
    "C65_termination_characterised",
    "C65_equal_rows_loop"
   ],
   "note": ""
  },
  {
   "property": "C66",
   "status": "proved",
   "theorems": [
    "C66_border_rows_are_noise"
   ],
   "note": ""
  },
  {
   "property": "C67",
   "status": "proved",
   "theorems": [
    "C67_nearest_training_row",
    "C67_errors"
   ],
   "note": ""
  },
  {
   "property": "C68",
   "status": "proved",
   "theorems": [
    "C68_finite_iff_nonempty"
   ],
   "note": ""
  },
  {
   "property": "C69",
   "status": "proved",
   "theorems": [
    "C69_kmeanspp_succeeds_iff",
    "C69_errors"
   ],
   "note": ""
  },
  {
   "property": "C70",
   "status": "proved",
   "theorems": [
    "C70_gaussian",
    "C70_bernoulli"
   ],
   "note": ""
  },
  {
   "property": "C71",
   "status": "proved",
   "theorems": [
    "C71_l2_squared_norm",
    "C71_elastic_net"
   ],
   "note": ""
  },
  {
   "property": "C72",
   "status": "proved",
   "theorems": [
    "C72_gd_steps",
    "C72_eps"
   ],
   "note": ""
  },
  {
   "property": "C73",
   "status": "proved",
   "theorems": [
    "C73_adagrad_step",
    "C73_adagrad_total"
   ],
   "note": ""
  },
  {
   "property": "C74",
   "status": "partial",
   "theorems": [
    "C74_refuted_diverges",
    "C75_scaled_data"
   ],
   "note": "Refuted as stated (C74_refuted_diverges): the fixed step 0.3 diverges on badly scaled data. What holds is C75."
  },
  {
   "property": "C75",
   "status": "proved",
   "theorems": [
    "C75_scaled_data"
   ],
   "note": ""
  },
  {
   "property": "C76",
   "status": "proved",
   "theorems": [
    "C76_poisson_is_weighted_least_squares"
   ],
   "note": ""
  },
  {
   "property": "C77",
   "status": "proved",
   "theorems": [
    "C77_sizes_checked",
    "C77_failed_train_keeps_model",
    "C77_singular_panics"
   ],
   "note": ""
  },
  {
   "property": "C78",
   "status": "proved",
   "theorems": [
    "C78_squared_exp",
    "C78_exponential",
    "C78_rational_quadratic"
   ],
   "note": ""
  },
  {
   "property": "C79",
   "status": "proved",
   "theorems": [
    "C79_posterior_variance",
    "C79_failed_train_keeps_model",
    "C79_failure_is_decomposition",
    "C79_target_count",
    "C56_posterior"
   ],
   "note": "Upper bound in C56_posterior, lower bound in C79_posterior_variance."
  },
  {
   "property": "C80",
   "status": "partial",
   "theorems": [
    "C80_refuted",
    "C81_share_of_steps"
   ],
   "note": "Refuted (C80_refuted): the sum in the code leaves out the coefficients and the other rows' targets, and t starts at 0. What holds is C81."
  },
  {
   "property": "C81",
   "status": "proved",
   "theorems": [
    "C81_share_of_steps",
    "C81_ignored_rows",
    "C81_constant_classifier"
   ],
   "note": ""
  },
  {
   "property": "C82",
   "status": "proved",
   "theorems": [
    "C82_exponential",
    "C82_gaussian"
   ],
   "note": ""
  },
  {
   "property": "C83",
   "status": "proved",
   "theorems": [
    "C83_gradient",
    "C83_crate_activations"
   ],
   "note": ""
  },
  {
   "property": "C84",
   "status": "proved",
   "theorems": [
    "C84_gradient_panics",
    "C84_gd_train",
    "C84_stochastic_train"
   ],
   "note": ""
  },
  {
   "property": "C85",
   "status": "proved",
   "theorems": [
    "C85_usable_histories",
    "C85_value"
   ],
   "note": ""
  },
  {
   "property": "C86",
   "status": "proved",
   "theorems": [
    "C86_principal",
    "C86_mean_zero"
   ],
   "note": ""
  },
  {
   "property": "C87",
   "status": "proved",
   "theorems": [
    "C87_posterior",
    "C87_round",
    "C87_start"
   ],
   "note": ""
  },
  {
   "property": "C88",
   "status": "proved",
   "theorems": [
    "C88_constant_column",
    "C88_few_rows"
   ],
   "note": ""
  },
  {
   "property": "C89",
   "status": "proved",
   "theorems": [
    "C89_stationary_start"
   ],
   "note": ""
  },
  {
   "property": "C90",
   "status": "proved",
   "theorems": [
    "C90_knn_brute",
    "C90_knn_tree",
    "C90_kmeans",
    "C90_dbscan",
    "C90_naive_bayes",
    "C90_lin_reg",
    "C90_logistic_reg",
    "C90_glm",
    "C90_gp",
    "C90_svm",
    "C90_pca"
   ],
   "note": ""
  },
  {
   "property": "C91",
   "status": "proved",
   "theorems": [
    "C91_knn",
    "C91_kmeans",
    "C91_lin_reg",
    "C91_logistic_reg",
    "C91_glm",
    "C91_gp",
    "C91_pca",
    "C91_gmm",
    "C91_never_fail"
   ],
   "note": ""
  },
  {
   "property": "C92",
   "status": "proved",
   "theorems": [
    "C92_knn",
    "C92_kmeans",
    "C92_dbscan",
    "C92_naive_bayes",
    "C92_lin_reg",
    "C92_logistic_reg",
    "C92_glm",
    "C92_gp",
    "C92_svm",
    "C92_pca",
    "C92_pca_components",
    "C92_gmm"
   ],
   "note": ""
  },
  {
   "property": "C93",
   "status": "proved",
   "theorems": [
    "C93_fold_scores",
    "C93_knn"
   ],
   "note": ""
  },
  {
   "property": "C94",
   "status": "proved",
   "theorems": [
    "C94_exponential_psd",
    "C94_rational_quadratic_psd",
    "C94_multiquadric_never_psd",
    "C94_hyper_tan_not_psd"
   ],
   "note": ""
  },
  {
   "property": "C95",
   "status": "proved",
   "theorems": [
    "C95_convex_rate"
   ],
   "note": ""
  },
  {
   "property": "C96",
   "status": "proved",
   "theorems": [
    "C96_logistic_rate",
    "C96_linear_rate"
   ],
   "note": ""
  },
  {
   "property": "C97",
   "status": "proved",
   "theorems": [
    "C97_round",
    "C97_train"
   ],
   "note": ""
  },
  {
   "property": "C98",
   "status": "proved",
   "theorems": [
    "C98_reaches_fixed_point",
    "C98_stop_rule",
    "C98_tiny_data_stops_early"
   ],
   "note": ""
  },
  {
   "property": "C99",
   "status": "proved",
   "theorems": [
    "C99_linear",
    "C99_logistic",
    "C99_glm",
    "C99_naive_bayes",
    "C99_kmeans",
    "C99_transforms",
    "C99_dbscan",
    "C99_scores",
    "C99_mean_squared_error"
   ],
   "note": ""
  },
  {
   "property": "C100",
   "status": "proved",
   "theorems": [
    "C100_accuracy",
    "C100_accuracy_ranks",
    "C100_two_class"
   ],
   "note": ""
  },
  {
   "property": "C101",
   "status": "proved",
   "theorems": [
    "C101_symmetric",
    "C101_symmetric_combinations",
    "C101_range"
   ],
   "note": ""
  },
  {
   "property": "C102",
   "status": "proved",
   "theorems": [
    "C102_neg_mean_squared_error",
    "C102_zero_score_of_different_outputs"
   ],
   "note": ""
  },
  {
   "property": "C103",
   "status": "proved",
   "theorems": [
    "C103_brute_force_true_distances",
    "C103_kdtree_true_distances"
   ],
   "note": ""
  },
  {
   "property": "C104",
   "status": "proved",
   "theorems": [
    "C104_kmeans_true_distances"
   ],
   "note": ""
  },
  {
   "property": "C105",
   "status": "proved",
   "theorems": [
    "C105_linear_prediction",
    "C105_relative_error_small"
   ],
   "note": ""
  },
  {
   "property": "C106",
   "status": "proved",
   "theorems": [
    "C106_knn",
    "C106_clusterers",
    "C106_regressors",
    "C106_svm",
    "C106_gp",
    "C106_const_mean",
    "C106_naive_bayes",
    "C106_pca",
    "C106_gmm",
    "C106_nnet",
    "C106_mlp",
    "C106_transforms"
   ],
   "note": ""
  },
  {
   "property": "C107",
   "status": "proved",
   "theorems": [
    "C107_accuracy_is_trace",
    "C107_two_class_table",
    "C107_exchange_table",
    "C107_exchange_scores",
    "C107_exchange_f1"
   ],
   "note": ""
  },
  {
   "property": "C108",
   "status": "proved",
   "theorems": [
    "C108_larger_eps_or_fewer_points"
   ],
   "note": ""
  },
  {
   "property": "C109",
   "status": "proved",
   "theorems": [
    "C109_above_smaller_eps",
    "C109_below_larger_eps",
    "C109_exact_when_separated"
   ],
   "note": ""
  },
  {
   "property": "C110",
   "status": "proved",
   "theorems": [
    "C110_dbscan",
    "C110_brute_force",
    "C110_classifier",
    "C110_similarities"
   ],
   "note": ""
  },
  {
   "property": "C111",
   "status": "proved",
   "theorems": [
    "C111_brute_force",
    "C111_kdtree",
    "C111_balltree",
    "C111_brute_force_binary64",
    "C111_kdtree_binary64"
   ],
   "note": ""
  },
  {
   "property": "C112",
   "status": "proved",
   "theorems": [
    "C112_depth_enough",
    "C112_depth_reached"
   ],
   "note": ""
  },
  {
   "property": "C113",
   "status": "proved",
   "theorems": [
    "C113_cdf_accuracy"
   ],
   "note": ""
  },
  {
   "property": "C114",
   "status": "proved",
   "theorems": [
    "C114_minmax_units",
    "C114_standardizer_units",
    "C114_normalizer_units",
    "C114_minmax_twice",
    "C114_standardizer_twice"
   ],
   "note": ""
  },
  {
   "property": "C115",
   "status": "proved",
   "theorems": [
    "C115_minmax_range",
    "C115_minmax_round_trip",
    "C115_minmax_order",
    "C115_standardizer_order",
    "C115_normalizer_length",
    "C115_tiny_and_huge_rows"
   ],
   "note": ""
  },
  {
   "property": "C116",
   "status": "proved",
   "theorems": [
    "C116_gradient_desc",
    "C116_stochastic_gd",
    "C116_adagrad",
    "C116_rmsprop",
    "C116_dbscan",
    "C116_gmm_weights",
    "C116_gmm_nan_accepted"
   ],
   "note": ""
  },
  {
   "property": "C117",
   "status": "proved",
   "theorems": [
    "C117_features",
    "C117_features_glm",
    "C117_units",
    "C117_column_order",
    "C117_training_rows",
    "C117_targets",
    "C117_targets_glm",
    "C117_repeated_data"
   ],
   "note": ""
  },
  {
   "property": "C118",
   "status": "proved",
   "theorems": [
    "C118_svm",
    "C118_gp",
    "C118_rigid",
    "C118_column_order",
    "C118_isometric",
    "C118_moves",
    "C118_svm_rigid",
    "C118_svm_isometric",
    "C118_gp_rigid",
    "C118_gp_isometric",
    "C118_const_mean",
    "C118_linear_sees_moves"
   ],
   "note": ""
  },
  {
   "property": "C119",
   "status": "proved",
   "theorems": [
    "C119_predictions",
    "C119_range",
    "C119_monotone",
    "C119_zero",
    "C119_accuracy",
    "C119_derivative",
    "C119_saturates",
    "C119_cost_nan",
    "C119_cost_nan_one_row"
   ],
   "note": ""
  },
  {
   "property": "C120",
   "status": "proved",
   "theorems": [
    "C120_steps",
    "C120_progress",
    "C120_cubic",
    "C120_parabola",
    "C120_extrapolation",
    "C120_extrapolation_bounds",
    "C120_bracket"
   ],
   "note": ""
  },
  {
   "property": "C121",
   "status": "proved",
   "theorems": [
    "C121_sgd",
    "C121_adagrad"
   ],
   "note": ""
  },
  {
   "property": "C122",
   "status": "proved",
   "theorems": [
    "C122_variance",
    "C122_solvable",
    "C122_linear",
    "C122_covariance"
   ],
   "note": ""
  },
  {
   "property": "C123",
   "status": "proved",
   "theorems": [
    "C123_gaussian_units",
    "C123_feature_order",
    "C123_bernoulli_coding",
    "C123_class_names"
   ],
   "note": ""
  },
  {
   "property": "C124",
   "status": "proved",
   "theorems": [
    "C124_same_clusters",
    "C124_centroids_move",
    "C124_forgy",
    "C124_random_partition",
    "C124_kmeanspp"
   ],
   "note": ""
  },
  {
   "property": "C125",
   "status": "proved",
   "theorems": [
    "C125_next_centroid_law"
   ],
   "note": ""
  },
  {
   "property": "C126",
   "status": "proved",
   "theorems": [
    "C126_seeding_competitive",
    "C126_means_unique"
   ],
   "note": ""
  },
  {
   "property": "C127",
   "status": "partial",
   "theorems": [
    "C127_refuted_default",
    "C128_no_worse"
   ],
   "note": "Refuted (C127_refuted_default) with the default initialiser: once the first centroid has lost its rows its NaN distance is never beaten, so every row goes to it. What holds is C128."
  },
  {
   "property": "C128",
   "status": "proved",
   "theorems": [
    "C128_no_worse"
   ],
   "note": ""
  },
  {
   "property": "C129",
   "status": "proved",
   "theorems": [
    "C129_stationary"
   ],
   "note": ""
  },
  {
   "property": "C130",
   "status": "proved",
   "theorems": [
    "C130_linear_rate",
    "C130_regression"
   ],
   "note": ""
  },
  {
   "property": "C131",
   "status": "proved",
   "theorems": [
    "C131_gradient_descent",
    "C131_conjugate_gradients",
    "C131_stochastic",
    "C131_order_gd",
    "C131_order_stochastic",
    "C131_linear_regression",
    "C131_logistic_regression",
    "C131_reordered_features"
   ],
   "note": ""
  },
  {
   "property": "C132",
   "status": "partial",
   "theorems": [
    "C132_refuted_mirrored_feature",
    "C132_same_loss",
    "C131_logistic_regression",
    "C131_reordered_features"
   ],
   "note": "Refuted (C132_refuted_mirrored_feature): every parameter starts at 0.5, so flipping a feature's sign starts training elsewhere and gives other predictions after the same iterations. What holds: the loss is the same in every frame (C132_same_loss), and frames that fix the vector of halves, such as reorderings, leave the predictions alone (C131)."
  },
  {
   "property": "C133",
   "status": "proved",
   "theorems": [
    "C133_jointly_optimal"
   ],
   "note": ""
  },
  {
   "property": "C134",
   "status": "proved",
   "theorems": [
    "C134_distances"
   ],
   "note": ""
  },
  {
   "property": "C135",
   "status": "proved",
   "theorems": [
    "C135_penalised_least_squares"
   ],
   "note": ""
  },
  {
   "property": "C136",
   "status": "proved",
   "theorems": [
    "C136_scaling_total",
    "C136_linreg",
    "C136_glm",
    "C136_naive_bayes"
   ],
   "note": ""
  },
  {
   "property": "C137",
   "status": "proved",
   "theorems": [
    "C137_motion",
    "C137_kmeans",
    "C137_dbscan",
    "C137_knn",
    "C137_linreg",
    "C137_glm",
    "C137_svm",
    "C137_gp"
   ],
   "note": ""
  },
  {
   "property": "C138",
   "status": "partial",
   "theorems": [
    "C138_refuted_units",
    "C138_poisson",
    "C139_passes",
    "C139_same_passes",
    "C139_frames"
   ],
   "note": "Refuted (C138_refuted_units): the stop test compares the coefficients with an absolute 1e-10, so measuring a feature in other units can stop training after one pass and move a prediction across one half. What holds: Poisson regression on counts of at least 1e-10 predicts the same in all frames (C138_poisson); for all families the passes coincide and only their number can differ (C139)."
  },
  {
   "property": "C139",
   "status": "proved",
   "theorems": [
    "C139_passes",
    "C139_same_passes",
    "C139_frames"
   ],
   "note": ""
  },
  {
   "property": "C140",
   "status": "partial",
   "theorems": [
    "C140_fixed_point",
    "C140_refuted_training",
    "C141_weighted_least_squares"
   ],
   "note": "Refuted (C140_refuted_training): the first working response is the target without the link, so training stops at a weighted least-squares fit of the raw targets (C141). What holds: a state that a pass reproduces solves the equations (C140_fixed_point)."
  },
  {
   "property": "C141",
   "status": "proved",
   "theorems": [
    "C141_weighted_least_squares",
    "C141_normal_is_default"
   ],
   "note": ""
  },
  {
   "property": "C142",
   "status": "proved",
   "theorems": [
    "C142_train",
    "C142_rigid",
    "C142_exception"
   ],
   "note": ""
  },
  {
   "property": "C143",
   "status": "proved",
   "theorems": [
    "C143_least_squares_trains"
   ],
   "note": ""
  },
  {
   "property": "C144",
   "status": "proved",
   "theorems": [
    "C144_posterior",
    "C144_gp_trains"
   ],
   "note": ""
  },
  {
   "property": "C145",
   "status": "proved",
   "theorems": [
    "C145_gmm_trains",
    "C145_exact_decomposition_exists"
   ],
   "note": ""
  },
  {
   "property": "C146",
   "status": "proved",
   "theorems": [
    "C146_glm_trains"
   ],
   "note": ""
  },
  {
   "property": "C147",
   "status": "proved",
   "theorems": [
    "C147_pca_trains",
    "C147_any_arithmetic",
    "C147_decomposition_exists",
    "C147_decompositions_exist"
   ],
   "note": ""
  },
  {
   "property": "C148",
   "status": "proved",
   "theorems": [
    "C148_moves_weights",
    "C148_predictions",
    "C148_training"
   ],
   "note": ""
  },
  {
   "property": "C149",
   "status": "proved",
   "theorems": [
    "C149_stay_alike",
    "C149_constant_start"
   ],
   "note": ""
  },
  {
   "property": "C150",
   "status": "partial",
   "theorems": [
    "C150_refuted_narrow_query",
    "C150_refuted_any_narrow_query",
    "C150_refuted_no_neighbours",
    "C150_refuted_custom_layer",
    "C150_refuted_parameter_count",
    "C150_refuted_pca_after_panic",
    "C151_tree_search",
    "C151_networks",
    "C151_gradients",
    "C151_pca"
   ],
   "note": "Refuted: a query with fewer columns than the training data (C150_refuted_narrow_query, C150_refuted_any_narrow_query), zero neighbours in a release build (C150_refuted_no_neighbours), a user-written layer that supplies too few parameters (C150_refuted_custom_layer), compute_grad with another number of parameters (C150_refuted_parameter_count) and a PCA model used after a panic in train (C150_refuted_pca_after_panic) are undefined behaviour reachable from safe code. C151 states under which conditions it cannot happen."
  },
  {
   "property": "C151",
   "status": "proved",
   "theorems": [
    "C151_brute_force",
    "C151_tree_building",
    "C151_tree_search",
    "C151_tree_untrained",
    "C151_classifiers",
    "C151_pca",
    "C151_networks",
    "C151_gradients",
    "C151_initialisers"
   ],
   "note": ""
  },
  {
   "property": "C152",
   "status": "proved",
   "theorems": [
    "C152_all_right",
    "C152_no_best_fit"
   ],
   "note": ""
  },
  {
   "property": "C153",
   "status": "proved",
   "theorems": [
    "C153_built",
    "C153_logistic_predictions",
    "C153_linear_predictions",
    "C153_logistic_gradient",
    "C153_linear_gradient",
    "C153_logistic_training",
    "C153_linear_training"
   ],
   "note": ""
  },
  {
   "property": "C154",
   "status": "proved",
   "theorems": [
    "C154_own_rows",
    "C154_own_rows_binary64",
    "C154_rounding_matters"
   ],
   "note": ""
  },
  {
   "property": "C155",
   "status": "proved",
   "theorems": [
    "C155_iris_shape",
    "C155_trees_shape",
    "C155_literals",
    "C155_trains"
   ],
   "note": ""
  },
  {
   "property": "C156",
   "status": "proved",
   "theorems": [
    "C156_one_neighbour",
    "C156_setosa",
    "C156_versicolor_virginica"
   ],
   "note": ""
  },
  {
   "property": "C157",
   "status": "proved",
   "theorems": [
    "C157_best_fit_exists",
    "C157_training_nears_best_fit",
    "C157_glm",
    "C157_iris"
   ],
   "note": ""
  },
  {
   "property": "C158",
   "status": "proved",
   "theorems": [
    "C158_splits_ignore_data",
    "C158_splits_equally_likely",
    "C158_samples_alike",
    "C158_pooled_scores",
    "C158_mean_of_scores",
    "C158_library_scores"
   ],
   "note": ""
  },
  {
   "property": "C159",
   "status": "proved",
   "theorems": [
    "C159_bernoulli",
    "C159_multinomial",
    "C159_gaussian"
   ],
   "note": ""
  },
  {
   "property": "C160",
   "status": "proved",
   "theorems": [
    "C160_mse_least",
    "C160_cross_entropy_least",
    "C160_cross_entropy_errors",
    "C160_mse_errors",
    "C160_logistic_accuracy"
   ],
   "note": ""
  },
  {
   "property": "C161",
   "status": "proved",
   "theorems": [
    "C161_tree_sizes",
    "C161_depth_is_reached"
   ],
   "note": ""
  },
  {
   "property": "C162",
   "status": "proved",
   "theorems": [
    "C162_residuals",
    "C162_gauss_markov",
    "C162_only_best",
    "C162_residual_variance"
   ],
   "note": ""
  },
  {
   "property": "C163",
   "status": "proved",
   "theorems": [
    "C163_leverages",
    "C163_leave_one_out",
    "C163_leave_one_out_trains"
   ],
   "note": ""
  },
  {
   "property": "C164",
   "status": "proved",
   "theorems": [
    "C164_network",
    "C164_activations",
    "C164_linear",
    "C164_logistic",
    "C164_targets",
    "C164_neighbours"
   ],
   "note": ""
  },
  {
   "property": "C165",
   "status": "proved",
   "theorems": [
    "C165_depth"
   ],
   "note": ""
  },
  {
   "property": "C166",
   "status": "proved",
   "theorems": [
    "C166_later_row_ignored",
    "C166_early_row_panics",
    "C166_first_row_wins",
    "C166_tree_hangs",
    "C166_classifier",
    "C166_dbscan_row_is_noise",
    "C166_dbscan_predict"
   ],
   "note": ""
  },
  {
   "property": "C167",
   "status": "proved",
   "theorems": [
    "C167_everything_in_cluster_zero",
    "C167_kmeanspp_refuses"
   ],
   "note": ""
  },
  {
   "property": "C168",
   "status": "proved",
   "theorems": [
    "C168_gaussian",
    "C168_bernoulli",
    "C168_multinomial"
   ],
   "note": ""
  },
  {
   "property": "C169",
   "status": "proved",
   "theorems": [
    "C169_fewer_neighbours",
    "C169_more_rows",
    "C169_all_rows_vote"
   ],
   "note": ""
  },
  {
   "property": "C170",
   "status": "proved",
   "theorems": [
    "C170_wide_query",
    "C170_narrow_query",
    "C170_wide_classifier"
   ],
   "note": ""
  },
  {
   "property": "C171",
   "status": "proved",
   "theorems": [
    "C171_best_fit",
    "C171_excess",
    "C171_training",
    "C171_glm_normal",
    "C171_glm_poisson"
   ],
   "note": ""
  },
  {
   "property": "C172",
   "status": "proved",
   "theorems": [
    "C172_one_cluster",
    "C172_column_means",
    "C172_one_cluster_predict",
    "C172_one_component",
    "C172_one_component_predict"
   ],
   "note": ""
  },
  {
   "property": "C173",
   "status": "proved",
   "theorems": [
    "C173_linear_train",
    "C173_linear_predict",
    "C173_logistic_train",
    "C173_logistic_predict"
   ],
   "note": ""
  },
  {
   "property": "C174",
   "status": "proved",
   "theorems": [
    "C174_descent",
    "C174_train"
   ],
   "note": ""
  },
  {
   "property": "C175",
   "status": "proved",
   "theorems": [
    "C175_learns_nothing",
    "C175_answers",
    "C175_kernels"
   ],
   "note": ""
  },
  {
   "property": "C176",
   "status": "proved",
   "theorems": [
    "C176_linear",
    "C176_logistic",
    "C176_glm",
    "C176_gp",
    "C176_svm",
    "C176_pca",
    "C176_nnet"
   ],
   "note": ""
  },
  {
   "property": "C177",
   "status": "proved",
   "theorems": [
    "C177_exponential",
    "C177_memoryless",
    "C177_gaussian",
    "C177_gaussian_cdf"
   ],
   "note": ""
  },
  {
   "property": "C178",
   "status": "proved",
   "theorems": [
    "C178_forgy",
    "C178_forgy_limit",
    "C178_random_partition"
   ],
   "note": ""
  },
  {
   "property": "C179",
   "status": "proved",
   "theorems": [
    "C179_linear",
    "C179_links",
    "C179_svm",
    "C179_kmeans",
    "C179_naive_bayes",
    "C179_gaussian_splits"
   ],
   "note": ""
  },
  {
   "property": "C180",
   "status": "proved",
   "theorems": [
    "C180_linear",
    "C180_logistic",
    "C180_kmeans",
    "C180_minmax",
    "C180_standardizer",
    "C180_scores",
    "C180_mean_squared_error"
   ],
   "note": ""
  },
  {
   "property": "C181",
   "status": "proved",
   "theorems": [
    "C181_activations",
    "C181_predictions",
    "C181_training"
   ],
   "note": ""
  },
  {
   "property": "C182",
   "status": "proved",
   "theorems": [
    "C182_stay_zero",
    "C182_zero_start"
   ],
   "note": ""
  },
  {
   "property": "C183",
   "status": "proved",
   "theorems": [
    "C183_weights",
    "C183_draws_exist",
    "C183_outputs",
    "C183_gradients",
    "C183_signal_sizes"
   ],
   "note": ""
  },
  {
   "property": "C184",
   "status": "proved",
   "theorems": [
    "C184_single_trains",
    "C184_single_closed_form",
    "C184_feature_trains",
    "C184_feature",
    "C184_never_worse",
    "C184_uncorrelated"
   ],
   "note": ""
  },
  {
   "property": "C185",
   "status": "proved",
   "theorems": [
    "C185_more_rows",
    "C185_rows_apart",
    "C185_copies",
    "C185_single_linkage"
   ],
   "note": ""
  },
  {
   "property": "C186",
   "status": "proved",
   "theorems": [
    "C186_predict",
    "C186_posterior"
   ],
   "note": ""
  },
  {
   "property": "C187",
   "status": "proved",
   "theorems": [
    "C187_gradient_is_sum",
    "C187_repeated_gradient",
    "C187_repeated_training"
   ],
   "note": ""
  },
  {
   "property": "C188",
   "status": "proved",
   "theorems": [
    "C188_batches_add",
    "C188_labels_chosen",
    "C188_accuracy_pools",
    "C188_scores_renamed",
    "C188_matrix_renamed",
    "C188_matrix_renamed_in_order"
   ],
   "note": ""
  },
  {
   "property": "C189",
   "status": "proved",
   "theorems": [
    "C189_unbiased",
    "C189_variance"
   ],
   "note": ""
  },
  {
   "property": "C190",
   "status": "partial",
   "theorems": [
    "C190_refuted_glm",
    "C190_refuted_logistic",
    "C190_refuted_svm",
    "C191_loss",
    "C191_best_fit",
    "C191_descent",
    "C191_predict"
   ],
   "note": "Refuted: a Bernoulli model trained on balanced data answers more than one half for class 1 under both namings of the classes (C190_refuted_glm), and logistic regression starts from the vector of halves (C190_refuted_logistic); a support vector machine gives the same answer under both namings, whatever it draws (C190_refuted_svm). C191 states what does hold: the cost, its best fits, descent from opposite starts and predictions exchange the classes."
  },
  {
   "property": "C191",
   "status": "proved",
   "theorems": [
    "C191_loss",
    "C191_best_fit",
    "C191_descent",
    "C191_predict"
   ],
   "note": ""
  },
  {
   "property": "C192",
   "status": "proved",
   "theorems": [
    "C192_linear",
    "C192_normal",
    "C192_poisson",
    "C192_neighbours",
    "C192_svm"
   ],
   "note": ""
  },
  {
   "property": "C193",
   "status": "proved",
   "theorems": [
    "C193_linear",
    "C193_logistic",
    "C193_process",
    "C193_glm",
    "C193_kmeans"
   ],
   "note": ""
  },
  {
   "property": "C194",
   "status": "proved",
   "theorems": [
    "C194_mean",
    "C194_covariance",
    "C194_kernel",
    "C194_exponential",
    "C194_rational_quadratic",
    "C194_not_linear"
   ],
   "note": ""
  },
  {
   "property": "C195",
   "status": "proved",
   "theorems": [
    "C195_bernoulli",
    "C195_multinomial",
    "C195_gaussian"
   ],
   "note": ""
  },
  {
   "property": "C196",
   "status": "proved",
   "theorems": [
    "C196_regression",
    "C196_classifiers",
    "C196_neighbour",
    "C196_single_layer",
    "C196_hidden_layer"
   ],
   "note": ""
  },
  {
   "property": "C197",
   "status": "proved",
   "theorems": [
    "C197_accuracy",
    "C197_vote",
    "C197_root_mean_squared_error",
    "C197_mixture"
   ],
   "note": ""
  },
  {
   "property": "C198",
   "status": "proved",
   "theorems": [
    "C198_one_cluster",
    "C198_only_noise",
    "C198_own_clusters"
   ],
   "note": ""
  }
 ]
}