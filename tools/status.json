{
 "C17": {
  "status": "partial",
  "note": "Inverse and finiteness proved for data without constant columns. Refuted for constant columns: fit accepts them and transform yields NaN (C17_refuted_constant_column)."
 },
 "C20": {
  "status": "partial",
  "also": [
   "C64_kdtree_exact",
   "C64_kdtree_exact_binary64"
  ],
  "note": "Refuted as stated: the search may return fewer than k rows or miss a nearer row (C20_refuted_*). What holds is C64."
 },
 "C21": {
  "status": "partial",
  "also": [
   "C64_balltree_exact"
  ],
  "note": "Refuted as stated (C21_refuted_*). What holds is C64."
 },
 "C23": {
  "status": "partial",
  "also": [
   "C65_termination_characterised",
   "C65_equal_rows_loop"
  ],
  "note": "Soundness of built trees proved. Termination refuted: leafsize equal rows, or two adjacent binary64 numbers, loop for ever. What holds is C65."
 },
 "C44": {
  "status": "partial",
  "also": [
   "C63_mse_gradient_times_rows",
   "C63_cross_entropy_gradient_times_rows"
  ],
  "note": "Refuted as stated for two or more rows (C44_refuted_mse_gradient): the gradients lack the factor 1/rows. What holds is C63."
 },
 "C26": {
  "status": "partial",
  "also": [
   "C66_border_rows_are_noise"
  ],
  "note": "Refuted as stated (C26_refuted_border_row): border rows are never put in a cluster. What holds is C66."
 },
 "C28": {
  "status": "partial",
  "also": [
   "C67_nearest_training_row",
   "C67_errors"
  ],
  "note": "Refuted for histories that retrain with prediction disabled and enable it again: the old rows are used with the new labels (wrong label or panic). What holds is C67."
 },
 "C32": {
  "status": "partial",
  "also": [
   "C68_finite_iff_nonempty",
   "C30_train_makes_steps",
   "C69_kmeanspp_succeeds_iff"
  ],
  "note": "Refuted as stated (C32_refuted_*): a centroid that loses all its rows becomes NaN, and k-means++ panics with fewer than k different rows. What holds is C68, C69 and C30_train_makes_steps."
 },
 "C35": {
  "status": "partial",
  "also": [
   "C70_gaussian",
   "C70_bernoulli"
  ],
  "note": "Proved for Multinomial. Refuted for Gaussian and Bernoulli (C35_refuted_gaussian_bernoulli): an unseen class 0 scores NaN and is always answered. What holds is C70."
 },
 "C45": {
  "status": "partial",
  "also": [
   "C71_l2_squared_norm",
   "C71_elastic_net"
  ],
  "note": "Proved for L1 (away from zero) and None. Refuted for L2 and ElasticNet (C45_refuted_l2): the cost uses the norm and the gradient belongs to its square. What holds is C71."
 },
 "C51": {
  "status": "partial",
  "also": [
   "C72_gd_steps",
   "C72_eps"
  ],
  "note": "Steps and descent proved. Refuted in the stopping rule (C51_refuted_zero_cost_start): the first cost is compared with 0, so a start of cost 0 is returned at once. What holds is C72."
 },
 "C53": {
  "status": "partial",
  "also": [
   "C73_adagrad_step",
   "C73_adagrad_total"
  ],
  "note": "RMSProp proved. Refuted for AdaGrad with tau = 0 (C53_refuted_adagrad_tau_zero): 0/0 makes the parameters NaN. What holds is C73."
 },
 "C74": {
  "status": "partial",
  "also": [
   "C75_scaled_data"
  ],
  "note": "Refuted as stated (C74_refuted_diverges): the fixed step 0.3 diverges on badly scaled data. What holds is C75."
 },
 "C43": {
  "status": "partial",
  "also": [
   "C76_poisson_is_weighted_least_squares"
  ],
  "note": "Fixed points of the iteration are maximum-likelihood estimates: proved for Normal and Poisson, and for Bernoulli away from the clipping thresholds; inside them it is refuted (C43_refuted_bernoulli_clipping). Also refuted for the code's own convergence test (C43_refuted_poisson_stops): the working response lags one pass behind, so a Poisson fit stops on its second pass. What is returned is C76."
 },
 "C57": {
  "status": "partial",
  "note": "Symmetry, positive semidefiniteness and the closure under sums and products proved; 'panics iff dimensions differ' proved for the distance kernels and refuted for Linear (C57_refuted_linear_truncates): utils::dot stops at the shorter vector."
 },
 "C79": {
  "status": "proved",
  "also": [
   "C56_posterior"
  ],
  "note": "Upper bound in C56_posterior, lower bound in C79_posterior_variance."
 },
 "C55": {
  "status": "partial",
  "note": "Proved for optim_iters > 0 and one target per row. Refuted otherwise: optim_iters = 0 (a public field) gives NaN coefficients and predictions; surplus targets are accepted by train and make every predict panic."
 },
 "C80": {
  "status": "partial",
  "also": [
   "C81_share_of_steps"
  ],
  "note": "Refuted (C80_refuted): the sum in the code leaves out the coefficients and the other rows' targets, and t starts at 0. What holds is C81."
 },
 "C61": {
  "status": "partial",
  "also": [
   "C113_cdf_accuracy"
  ],
  "note": "Everything but the accuracy of the cdf is proved. The documented accuracy of 0.003 is refuted (C61_refuted_accuracy): the error exceeds it at 1.6 standard deviations. The error is at most 0.0035 everywhere: C113."
 },
 "C49": {
  "status": "partial",
  "also": [
   "C83_gradient"
  ],
  "note": "Holds for one row without regularisation, which is how the stochastic optimisers call it (C49_one_row, C49_default_one_row). Refuted for every batch of two or more rows wherever the derivative is not zero, and with L2 regularisation. What holds is C83."
 },
 "C58": {
  "status": "partial",
  "also": [
   "C85_usable_histories",
   "C85_value"
  ],
  "note": "Errors proved for all histories. Refuted for wide training data with fewer components requested than columns (every predict panics) and for tall data after wide data (the flag inv is never reset: predict panics or multiplies by the transposed matrix). What holds is C85."
 },
 "C59": {
  "status": "partial",
  "note": "Proved over the reals for weights that are all positive: construction, every training round, retraining and predict. Refuted for all-zero weights, which with_weights turns into NaN (C59_refuted_zero_weights), and for a single zero weight, whose component mean becomes 0/0 and turns every prediction into NaN (C59_refuted_zero_weight)."
 },
 "C54": {
  "status": "partial",
  "note": "The evaluation bound and termination hold for every arithmetic. The cost does not rise for costs that are never NaN with finite gradients (infinite costs allowed). Refuted as stated for arbitrary cost functions: a NaN cost on the way is accepted and lets the cost rise from 1 to 5 (C54_refuted_nan_cost). iters and max are assumed below 2^31 (the code casts them to i32)."
 },
 "C05": {
  "status": "partial",
  "also": [
   "C05_refuted_nnet",
   "C93_fold_scores"
  ],
  "note": "Proved for memoryless models. Refuted for neural networks, which start from the stored weights (C05_refuted_nnet). C93 extends the positive part to every model replaced by retraining."
 },
 "C36": {
  "status": "partial",
  "also": [
   "C91_knn",
   "C91_kmeans",
   "C91_lin_reg",
   "C91_logistic_reg",
   "C91_glm",
   "C91_gp",
   "C91_pca",
   "C91_gmm",
   "C91_never_fail"
  ],
  "note": "Refuted for naive Bayes (C36_refuted_naive_bayes). Holds for all other models: C91."
 },
 "C37": {
  "status": "partial",
  "also": [
   "C90_lin_reg",
   "C90_dbscan",
   "C90_pca"
  ],
  "note": "Refuted for neural networks, Gaussian mixtures, DBSCAN with changed predict mode, and PCA after wide data (C37_refuted_*). Holds for the other models: C90."
 },
 "C62": {
  "status": "partial",
  "also": [
   "C92_knn",
   "C92_kmeans",
   "C92_dbscan",
   "C92_naive_bayes",
   "C92_lin_reg",
   "C92_logistic_reg",
   "C92_glm",
   "C92_gp",
   "C92_svm",
   "C92_pca",
   "C92_gmm"
  ],
  "note": "Refuted for neural networks (a fresh one predicts) and DBSCAN without predict mode (InvalidState). Holds for the others: C92."
 },
 "C127": {
  "status": "partial",
  "also": [
   "C128_no_worse"
  ],
  "note": "Refuted (C127_refuted_default) with the default initialiser: once the first centroid has lost its rows its NaN distance is never beaten, so every row goes to it. What holds is C128."
 },
 "C132": {
  "status": "partial",
  "also": [
   "C131_logistic_regression",
   "C131_reordered_features"
  ],
  "note": "Refuted (C132_refuted_mirrored_feature): every parameter starts at 0.5, so flipping a feature's sign starts training elsewhere and gives other predictions after the same iterations. What holds: the loss is the same in every frame (C132_same_loss), and frames that fix the vector of halves, such as reorderings, leave the predictions alone (C131)."
 },
 "C138": {
  "status": "partial",
  "also": [
   "C139_passes",
   "C139_same_passes",
   "C139_frames"
  ],
  "note": "Refuted (C138_refuted_units): the stop test compares the coefficients with an absolute 1e-10, so measuring a feature in other units can stop training after one pass and move a prediction across one half. What holds: Poisson regression on counts of at least 1e-10 predicts the same in all frames (C138_poisson); for all families the passes coincide and only their number can differ (C139)."
 },
 "C140": {
  "status": "partial",
  "also": [
   "C141_weighted_least_squares"
  ],
  "note": "Refuted (C140_refuted_training): the first working response is the target without the link, so training stops at a weighted least-squares fit of the raw targets (C141). What holds: a state that a pass reproduces solves the equations (C140_fixed_point)."
 },
 "C150": {
  "status": "partial",
  "also": [
   "C151_tree_search",
   "C151_networks",
   "C151_gradients",
   "C151_pca"
  ],
  "note": "Refuted: a query with fewer columns than the training data (C150_refuted_narrow_query, C150_refuted_any_narrow_query), zero neighbours in a release build (C150_refuted_no_neighbours), a user-written layer that supplies too few parameters (C150_refuted_custom_layer), compute_grad with another number of parameters (C150_refuted_parameter_count) and a PCA model used after a panic in train (C150_refuted_pca_after_panic) are undefined behaviour reachable from safe code. C151 states under which conditions it cannot happen."
 },
 "C190": {
  "status": "partial",
  "also": [
   "C191_loss",
   "C191_best_fit",
   "C191_descent",
   "C191_predict"
  ],
  "note": "Refuted: a Bernoulli model trained on balanced data answers more than one half for class 1 under both namings of the classes (C190_refuted_glm), and logistic regression starts from the vector of halves (C190_refuted_logistic); a support vector machine gives the same answer under both namings, whatever it draws (C190_refuted_svm). C191 states what does hold: the cost, its best fits, descent from opposite starts and predictions exchange the classes."
 }
}