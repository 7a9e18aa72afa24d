{"id": "C01", "title": "confusion_matrix counts every (truth, prediction) pair", "statement": "confusion_matrix(preds, targets, None) is a square matrix whose side is the number of distinct labels occurring in preds or targets; with those labels in ascending order l_0<l_1<..., entry (i,j) is exactly the number of positions whose target is l_i and whose prediction is l_j, so the entries sum to the number of samples. It panics exactly when the two slices have different lengths.", "quantifier": "all pairs of label sequences over a totally ordered label type", "why_tests_cant": "infinitely many label sequences; tests fix three tiny tables", "anchors": ["src/analysis/confusion_matrix.rs:confusion_matrix", "src/analysis/confusion_matrix.rs:ordered_distinct"]}
{"id": "C02", "title": "confusion_matrix with explicit labels", "statement": "confusion_matrix(preds, targets, Some(labels)) panics iff the lengths differ or labels contains a duplicate; otherwise it is |labels| x |labels|, entry (i,j) counts positions with target labels[i] and prediction labels[j], and samples for which either label is not listed are ignored.", "quantifier": "all label lists and all pairs of label sequences", "why_tests_cant": "the label list is arbitrary (any order, any subset, with or without duplicates)", "anchors": ["src/analysis/confusion_matrix.rs:confusion_matrix"]}
{"id": "C03", "title": "k-fold validation partitions the samples", "statement": "For n samples and k folds with 1<k<=n, cross validation makes exactly k splits; in each split no sample is used both for training and for testing and every sample is used for one of the two; over all splits every sample is tested exactly once; test-set sizes differ by at most one with the larger ones first. Otherwise (k<=1 or n<k) it panics.", "quantifier": "all n, k and all outcomes of the random shuffle", "why_tests_cant": "n, k and the shuffle are unbounded; the index arithmetic has a special case for every remainder n mod k", "anchors": ["src/analysis/cross_validation.rs:Folds", "src/analysis/cross_validation.rs:Folds::next", "src/analysis/cross_validation.rs:create_shuffled_indices"]}
{"id": "C04", "title": "k_fold_validate scores what it claims to score", "statement": "k_fold_validate returns k scores, the i-th obtained by training the model on the rows (with their own targets) outside fold i, predicting the rows of fold i and scoring against exactly their targets; the first training or prediction error is returned and nothing is trained after it.", "quantifier": "all models, data sets, scoring functions and shuffle outcomes", "why_tests_cant": "quantifies over arbitrary user models, including stateful and failing ones", "anchors": ["src/analysis/cross_validation.rs:k_fold_validate", "src/analysis/cross_validation.rs:TrainingIndices"]}
{"id": "C05", "title": "k_fold_validate folds are independent of each other", "statement": "The score reported for a fold is the score of a freshly configured model trained on that fold's training rows only (no information from the fold's test rows reaches the model through earlier folds).", "quantifier": "all models implementing SupModel, all data, all shuffles", "why_tests_cant": "depends on the history of train calls made on the same model object", "anchors": ["src/analysis/cross_validation.rs:k_fold_validate", "src/learning/nnet/mod.rs:NeuralNet::train"]}
{"id": "C06", "title": "accuracy is the fraction of correct predictions", "statement": "accuracy(o,t) panics iff lengths differ; on non-empty inputs it equals (#positions with o=t)/n, lies in [0,1], is 1 iff the sequences are equal and 0 iff they differ everywhere; row_accuracy does the same for whole rows.", "quantifier": "all pairs of output and target sequences", "why_tests_cant": "unbounded lengths and element types", "anchors": ["src/analysis/score.rs:accuracy", "src/analysis/score.rs:row_accuracy"]}
{"id": "C07", "title": "precision, recall and F1 match their definitions", "statement": "On 0/1 labels precision=TP/(TP+FP), recall=TP/(TP+FN), f1=2TP/(2TP+FP+FN), which is their harmonic mean when defined; all lie in [0,1] when defined; each function panics iff the lengths differ or some label is neither 0 nor 1; the result is NaN exactly when the denominator count is zero.", "quantifier": "all pairs of label sequences", "why_tests_cant": "unbounded; the zero-denominator and mixed-label cases are many", "anchors": ["src/analysis/score.rs:precision", "src/analysis/score.rs:recall", "src/analysis/score.rs:f1"]}
{"id": "C08", "title": "neg_mean_squared_error is minus the mean squared error", "statement": "neg_mean_squared_error(o,t) = -(1/n) * sum of squared entry differences (n = number of rows), hence <= 0, with equality iff o = t.", "quantifier": "all pairs of equally shaped matrices (exact arithmetic)", "why_tests_cant": "for all reals", "anchors": ["src/analysis/score.rs:neg_mean_squared_error", "src/learning/toolkit/cost_fn.rs:MeanSqError::cost"]}
{"id": "C09", "title": "in_place_fisher_yates permutes, uniformly", "statement": "For every outcome of the generator the resulting slice is a permutation of the input, no index is ever out of bounds, and for n distinct elements each of the n! permutations is produced by exactly one of the n! equally likely choice vectors.", "quantifier": "all slices and all generator outcomes", "why_tests_cant": "RNG outcomes cannot be enumerated by tests; uniformity is a counting statement over all of them", "anchors": ["src/learning/toolkit/rand_utils.rs:in_place_fisher_yates"]}
{"id": "C10", "title": "fisher_yates copies a permutation without reading uninitialised memory", "statement": "fisher_yates returns a permutation of its input for every outcome of the generator, never reads an array slot before it has been written, and for distinct elements every permutation is produced by exactly one choice vector.", "quantifier": "all slices and all generator outcomes", "why_tests_cant": "memory initialisation on every path and a counting statement over all random outcomes", "anchors": ["src/learning/toolkit/rand_utils.rs:fisher_yates"]}
{"id": "C11", "title": "reservoir_sample draws a uniform sample of the requested size", "statement": "reservoir_sample(pool,k) panics iff pool.len() < k; otherwise it returns k elements of the pool taken from k distinct positions, and every position is included in the sample for exactly the fraction k/n of the generator outcomes, and every set of k positions is drawn with the same probability 1/C(n,k).", "quantifier": "all pools, sizes and generator outcomes", "why_tests_cant": "probability statement over every random outcome", "anchors": ["src/learning/toolkit/rand_utils.rs:reservoir_sample"]}
{"id": "C12", "title": "Shuffler permutes rows", "statement": "Shuffler::transform returns (for every generator outcome) a matrix of the same shape whose multiset of rows is that of the input, every row intact.", "quantifier": "all matrices and generator outcomes", "why_tests_cant": "random outcomes and all shapes", "anchors": ["src/data/transforms/shuffle.rs:Shuffler::transform"]}
{"id": "C13", "title": "MinMaxScaler maps every column onto the requested range", "statement": "After fitting on data with no constant column, transforming that same data gives, per column, values between scaled_min and scaled_max; the column minimum goes to scaled_min, the column maximum to scaled_max, and order is preserved.", "quantifier": "all finite matrices with at least one row and all scaled_min < scaled_max (exact arithmetic)", "why_tests_cant": "for all real data", "anchors": ["src/data/transforms/minmax.rs:MinMaxFitter::fit", "src/data/transforms/minmax.rs:MinMaxFitter::fit", "src/data/transforms/minmax.rs:MinMaxScaler::transform"]}
{"id": "C14", "title": "MinMaxScaler::inv_transform undoes transform", "statement": "For any fitted scaler with non-zero scale, inv_transform(transform(x)) = x and transform(inv_transform(x)) = x for every matrix of the right width, and both are Err for the wrong width.", "quantifier": "all fitted scalers, all matrices (exact arithmetic)", "why_tests_cant": "for all real data", "anchors": ["src/data/transforms/minmax.rs:MinMaxScaler::transform", "src/data/transforms/minmax.rs:MinMaxScaler::inv_transform"]}
{"id": "C15", "title": "MinMax fitting rejects what it cannot scale", "statement": "fit returns Err (not a scaler producing NaN or infinite values) iff the data contains a non-finite entry or a constant column, including for every placement of the NaN/infinity in the matrix.", "quantifier": "all matrices over finite numbers, infinities and NaN, all requested ranges", "why_tests_cant": "placement and order of special values interact with the running min/max", "anchors": ["src/data/transforms/minmax.rs:MinMaxFitter::fit"]}
{"id": "C16", "title": "Standardizer output has the requested mean and standard deviation", "statement": "fit_transform of data whose columns are not constant yields columns with mean scaled_mean and sample standard deviation scaled_stdev; fit is Err for fewer than two rows or non-finite means.", "quantifier": "all real matrices with >= 2 rows (exact arithmetic)", "why_tests_cant": "for all real data", "anchors": ["src/data/transforms/standardize.rs:StandardizerFitter::fit", "src/data/transforms/standardize.rs:Standardizer::transform"]}
{"id": "C17", "title": "Standardizer::inv_transform undoes transform; fitting rejects what it cannot scale", "statement": "For a fitted standardizer inv_transform(transform(x)) = x; and a successfully fitted standardizer maps finite data to finite data.", "quantifier": "all matrices (exact arithmetic extended with infinities and NaN)", "why_tests_cant": "for all data including constant columns", "anchors": ["src/data/transforms/standardize.rs:Standardizer::inv_transform", "src/data/transforms/standardize.rs:StandardizerFitter::fit"]}
{"id": "C18", "title": "Normalizer gives unit rows", "statement": "Normalizer::transform makes every non-zero row have norm one in the same direction, leaves zero rows unchanged, is idempotent, and returns Err iff some row has a non-finite norm.", "quantifier": "all matrices (Euclidean norm; exact arithmetic extended with infinities and NaN)", "why_tests_cant": "for all data", "anchors": ["src/data/transforms/normalize.rs:Normalizer::transform"]}
{"id": "C19", "title": "Brute-force search returns the k nearest rows", "statement": "BruteForce::search(point,k) (0<k<=rows) returns k distinct row indices with their Euclidean distances, in ascending order of distance, and no row left out is strictly closer than one returned; it panics if k=0 or k exceeds the rows, and is Err before build.", "quantifier": "all data sets, query points and k; also over IEEE binary64 arithmetic", "why_tests_cant": "unbounded data; ties and insertion order matter", "anchors": ["src/learning/knn/brute_force.rs:BruteForce::search", "src/learning/knn/mod.rs:KNearest"]}
{"id": "C20", "title": "KD-tree search agrees with brute force", "statement": "KDTree::search(point,k) returns the k nearest rows of the data the tree was built from, for every data set and every k from 1 to the number of rows.", "quantifier": "all data sets, leaf sizes, query points and k", "why_tests_cant": "pruning depends on all geometric configurations; the unit tests use one tree", "anchors": ["src/learning/knn/binary_tree.rs:BinaryTree::search", "src/learning/knn/binary_tree.rs:KDTreeBranch", "src/learning/knn/mod.rs:KNearest::add"]}
{"id": "C21", "title": "Ball-tree search agrees with brute force", "statement": "BallTree::search(point,k) returns the k nearest rows of the data, for every data set and every k.", "quantifier": "all data sets, leaf sizes, query points and k", "why_tests_cant": "pruning depends on all geometric configurations", "anchors": ["src/learning/knn/binary_tree.rs:BallTreeBranch", "src/learning/knn/binary_tree.rs:BinaryTree::search"]}
{"id": "C22", "title": "Tree search results are always genuine", "statement": "Whatever the data, leaf size and k>=1, the indices returned by KD/Ball tree search are distinct and in range, paired with their true distances, sorted ascending and at most k many.", "quantifier": "all data sets, leaf sizes, query points and k", "why_tests_cant": "unbounded inputs", "anchors": ["src/learning/knn/binary_tree.rs:BinaryTree::search_leaf", "src/learning/knn/mod.rs:KNearest"]}
{"id": "C23", "title": "Tree construction terminates and keeps every row", "statement": "build terminates for every data set, and the resulting tree stores every row index exactly once in leaves that are non-empty and smaller than leafsize, inside the recorded bounding box.", "quantifier": "all data sets and leaf sizes", "why_tests_cant": "termination cannot be observed by tests; duplicates can be arranged arbitrarily", "anchors": ["src/learning/knn/binary_tree.rs:BinaryTree::select_split", "src/learning/knn/binary_tree.rs:BinaryTree::split"]}
{"id": "C24", "title": "KNNClassifier predicts the majority label", "statement": "After successful train with k, each predicted label is the most frequent label among the k nearest training rows, the smallest label winning ties; train is Err (and leaves the classifier as it was) if targets and rows differ in number or there are fewer than k rows; predict is Err before train.", "quantifier": "all data, labels and k>=1", "why_tests_cant": "unbounded data and tie configurations", "anchors": ["src/learning/knn/mod.rs:KNNClassifier"]}
{"id": "C25", "title": "DBSCAN labels exactly the density-connected components of core points", "statement": "After train, two core points (rows with at least min_points rows closer than eps, themselves included) have the same cluster label iff a chain of core points with consecutive distances below eps links them; labels are 0,1,2,... in order of first appearance; every core point has a label.", "quantifier": "all data sets, eps and min_points", "why_tests_cant": "connectivity over arbitrary point configurations and visiting orders", "anchors": ["src/learning/dbscan.rs:DBSCAN::train", "src/learning/dbscan.rs:DBSCAN::expand_cluster", "src/learning/dbscan.rs:DBSCAN::region_query"]}
{"id": "C26", "title": "DBSCAN puts border points in a cluster", "statement": "A row that is not a core point but lies within eps of a core point belongs to a cluster of such a core point (noise rows are exactly those not within eps of any core point).", "quantifier": "all data sets, eps and min_points", "why_tests_cant": "depends on every point configuration", "anchors": ["src/learning/dbscan.rs:DBSCAN::expand_cluster"]}
{"id": "C27", "title": "DBSCAN expansion terminates whatever the data", "statement": "train terminates for every data set; recursion depth and work are bounded by the number of rows (each row is visited at most once).", "quantifier": "all data sets", "why_tests_cant": "termination of mutual recursion", "anchors": ["src/learning/dbscan.rs:DBSCAN::expand_cluster"]}
{"id": "C28", "title": "DBSCAN::predict uses the nearest training row", "statement": "With prediction enabled, each new row gets the label of its nearest training row (lowest index on ties) if that distance is below eps, and None otherwise; predict is Err before train or with prediction disabled; this holds after any history of train and set_predictive calls.", "quantifier": "all histories of train/set_predictive/predict calls", "why_tests_cant": "history-dependent state", "anchors": ["src/learning/dbscan.rs:DBSCAN::predict", "src/learning/dbscan.rs:DBSCAN::set_predictive"]}
{"id": "C29", "title": "k-means assigns every row to a closest centroid", "statement": "KMeansClassifier::predict gives each row the index of a centroid at minimal Euclidean distance, the lowest such index on ties; it is Err before training and panics on rows of the wrong width.", "quantifier": "all centroids and rows (exact arithmetic)", "why_tests_cant": "all real configurations, ties", "anchors": ["src/learning/k_means.rs:find_closest_centroids", "src/learning/k_means.rs:KMeansClassifier::predict"]}
{"id": "C30", "title": "Lloyd iterations never increase the k-means objective", "statement": "As long as no cluster becomes empty, each training iteration (reassign, then recompute centroids) does not increase the sum of squared distances of the rows to their assigned centroids, and recomputed centroids are the means of their rows.", "quantifier": "all data and initial centroids (exact arithmetic)", "why_tests_cant": "inequality over all reals", "anchors": ["src/learning/k_means.rs:KMeansClassifier::train", "src/learning/k_means.rs:KMeansClassifier::update_centroids"]}
{"id": "C31", "title": "k-means initialisers choose valid centroids", "statement": "train is Err when k exceeds the number of rows; Forgy and k-means++ start from k rows of the data at k distinct positions; k-means++ never picks a row coinciding with an already chosen centroid; RandomPartition starts from the means of k non-empty classes partitioning the rows.", "quantifier": "all data, k and generator outcomes", "why_tests_cant": "random outcomes", "anchors": ["src/learning/k_means.rs:Forgy", "src/learning/k_means.rs:RandomPartition", "src/learning/k_means.rs:KPlusPlus", "src/learning/k_means.rs:sample_discretely"]}
{"id": "C32", "title": "k-means training yields finite centroids", "statement": "For finite data and any initialiser outcome, a successful train gives finite centroids and succeeds whenever there are at least k rows.", "quantifier": "all finite data and generator outcomes", "why_tests_cant": "empty clusters arise only for special configurations", "anchors": ["src/learning/k_means.rs:KMeansClassifier::update_centroids", "src/learning/k_means.rs:KPlusPlus::init_centroids"]}
{"id": "C33", "title": "Naive Bayes predictions are one-hot argmax rows", "statement": "predict returns one row per input with a single 1 in the column of a class of maximal joint log-likelihood (first one on ties) and 0 elsewhere; Err before training.", "quantifier": "all inputs and trained parameters", "why_tests_cant": "all real inputs", "anchors": ["src/learning/naive_bayes.rs:NaiveBayes::get_classes", "src/learning/naive_bayes.rs:NaiveBayes::predict", "src/learning/naive_bayes.rs:NaiveBayes::find_class"]}
{"id": "C34", "title": "Naive Bayes estimates the right parameters", "statement": "After train, class priors are the class frequencies (non-negative, summing to one); Gaussian: means and sample variances per class; Bernoulli/Multinomial: the smoothed log-frequencies; and the joint log-likelihood used for prediction is ln prior + sum of ln density/mass of the features.", "quantifier": "all data with every class present (exact arithmetic)", "why_tests_cant": "all real data", "anchors": ["src/learning/naive_bayes.rs:NaiveBayes::update_params", "src/learning/naive_bayes.rs:Gaussian", "src/learning/naive_bayes.rs:Bernoulli", "src/learning/naive_bayes.rs:Multinomial"]}
{"id": "C35", "title": "A class never seen in training is never predicted", "statement": "If no training row has class c then predict never answers class c (provided some class was seen).", "quantifier": "all training sets and inputs", "why_tests_cant": "depends on NaN/infinity propagation through every path", "anchors": ["src/learning/naive_bayes.rs:Gaussian::joint_log_lik", "src/learning/naive_bayes.rs:NaiveBayes::get_classes"]}
{"id": "C36", "title": "A failed train does not corrupt a trained model", "statement": "If train returns Err on an already trained model, later predictions are unchanged (for each model in the crate that can fail).", "quantifier": "all histories of successful and failing train calls", "why_tests_cant": "history and error-path property", "anchors": ["src/learning/naive_bayes.rs:NaiveBayes::train", "src/learning/knn/mod.rs:KNNClassifier::train", "src/learning/pca.rs:PCA::train", "src/learning/gp.rs:GaussianProcess::train"]}
{"id": "C37", "title": "Retraining replaces the model", "statement": "After a successful train, predictions depend only on the configuration and the last training set, not on earlier train calls.", "quantifier": "all histories of train calls", "why_tests_cant": "history property", "anchors": ["src/learning/pca.rs:PCA::train", "src/learning/gmm.rs:GaussianMixtureModel::train", "src/learning/nnet/mod.rs:NeuralNet::train", "src/learning/dbscan.rs:DBSCAN::train", "src/learning/lin_reg.rs:LinRegressor::train"]}
{"id": "C38", "title": "LinRegressor::train is ordinary least squares", "statement": "If train succeeds, no parameter vector (with intercept) has a smaller sum of squared residuals than the trained one, and predict is the affine function with those parameters.", "quantifier": "all data and all competing parameter vectors (exact arithmetic)", "why_tests_cant": "optimality over all reals", "anchors": ["src/learning/lin_reg.rs:LinRegressor::train", "src/learning/lin_reg.rs:LinRegressor::predict"]}
{"id": "C39", "title": "LinRegressor/LogisticRegressor gradients are the derivatives of their costs", "statement": "compute_grad returns a pair (c,g) where g_j is the partial derivative of c with respect to the j-th parameter at every parameter vector.", "quantifier": "all parameters, inputs and targets (exact arithmetic)", "why_tests_cant": "derivative at all points", "anchors": ["src/learning/lin_reg.rs:LinRegressor::compute_grad", "src/learning/logistic_reg.rs:BaseLogisticRegressor::compute_grad"]}
{"id": "C40", "title": "Logistic predictions are probabilities", "statement": "LogisticRegressor::predict returns values strictly between 0 and 1, increasing in the linear predictor; Err before training.", "quantifier": "all parameters and inputs (exact arithmetic)", "why_tests_cant": "all reals", "anchors": ["src/learning/logistic_reg.rs:LogisticRegressor::predict"]}
{"id": "C41", "title": "GLM link functions", "statement": "For each link, func_inv inverts func on its domain and func_grad is the derivative of func; fitted means lie in the family's range.", "quantifier": "all reals in the domain", "why_tests_cant": "all reals", "anchors": ["src/learning/glm.rs:LinkFunc", "src/learning/glm.rs:Logit", "src/learning/glm.rs:Log", "src/learning/glm.rs:Identity"]}
{"id": "C42", "title": "GLM with the normal family is least squares", "statement": "GenLinearModel::new(Normal).train yields the ordinary least squares parameters.", "quantifier": "all data (exact arithmetic)", "why_tests_cant": "optimality over all reals", "anchors": ["src/learning/glm.rs:GenLinearModel::train", "src/learning/glm.rs:Normal"]}
{"id": "C43", "title": "Converged IRLS solves the likelihood equations", "statement": "If the GLM iteration reaches a fixed point, the parameters satisfy the score equations of the family (stationary point of the log-likelihood).", "quantifier": "all data (exact arithmetic)", "why_tests_cant": "all reals", "anchors": ["src/learning/glm.rs:GenLinearModel::train"]}
{"id": "C44", "title": "Cost-function gradients are the derivatives of the costs", "statement": "For MeanSqError and CrossEntropyError, grad_cost is entrywise the partial derivative of cost with respect to the outputs, for matrices with any number of rows.", "quantifier": "all outputs/targets (in the domain of ln), all sizes (exact arithmetic)", "why_tests_cant": "derivative at all points, all sizes", "anchors": ["src/learning/toolkit/cost_fn.rs:MeanSqError", "src/learning/toolkit/cost_fn.rs:CrossEntropyError"]}
{"id": "C45", "title": "Regularisation gradients are the derivatives of the regularisation costs", "statement": "reg_grad is entrywise the derivative of reg_cost (L1 away from zero, L2, ElasticNet, None).", "quantifier": "all weight matrices and constants (exact arithmetic)", "why_tests_cant": "derivative at all points", "anchors": ["src/learning/toolkit/regularization.rs:Regularization"]}
{"id": "C46", "title": "Activation functions", "statement": "func_grad is the derivative of func; func_grad_from_output(func x) = func_grad x; func_inv(func x) = x; sigmoid maps into (0,1), tanh into (-1,1), all are strictly increasing.", "quantifier": "all reals", "why_tests_cant": "all reals", "anchors": ["src/learning/toolkit/activ_fn.rs:Sigmoid", "src/learning/toolkit/activ_fn.rs:Linear", "src/learning/toolkit/activ_fn.rs:Exp", "src/learning/toolkit/activ_fn.rs:Tanh"]}
{"id": "C47", "title": "Neural-network weights are laid out consistently", "statement": "For every network built by default/new/mlp/add/add_layers the stored weight vector has length equal to the sum of the layers' parameter counts, get_net_weights returns each layer's own block, and every slice taken during predict/train is in bounds and blocks do not overlap.", "quantifier": "all sequences of construction calls and layer sizes", "why_tests_cant": "all histories of builder calls; unsafe slicing", "anchors": ["src/learning/nnet/mod.rs:BaseNeuralNet::get_layer_weights", "src/learning/nnet/mod.rs:NeuralNet::mlp", "src/learning/nnet/mod.rs:NeuralNet::add"]}
{"id": "C48", "title": "Neural-network prediction is the composition of its layers", "statement": "predict applies the layers in order, each to the output of the one before; it is Err iff some layer's input width does not match, and never panics on shape.", "quantifier": "all networks and inputs", "why_tests_cant": "all layer stacks", "anchors": ["src/learning/nnet/mod.rs:BaseNeuralNet::forward_prop", "src/learning/nnet/net_layer.rs:Linear::forward"]}
{"id": "C49", "title": "Backpropagation computes the gradient of the training cost", "statement": "compute_grad returns the training cost and its partial derivatives with respect to all weights, for networks of any depth built from Linear, Sigmoid, Tanh and Exp layers.", "quantifier": "all networks, weights, inputs, targets (exact arithmetic)", "why_tests_cant": "derivative at all points; all depths and batch sizes", "anchors": ["src/learning/nnet/mod.rs:BaseNeuralNet::compute_grad", "src/learning/nnet/net_layer.rs:Linear::back_input", "src/learning/nnet/net_layer.rs:Linear::back_params"]}
{"id": "C50", "title": "remove_first_col drops exactly the first column", "statement": "The in-place compaction used in back-propagation returns the matrix without its first column, reading and writing in bounds.", "quantifier": "all matrices with at least one column", "why_tests_cant": "in-place overlapping copies for all shapes", "anchors": ["src/learning/nnet/net_layer.rs:remove_first_col"]}
{"id": "C51", "title": "GradientDesc takes the documented steps", "statement": "The result is x_m with x_0 = start and x_{i+1} = x_i - alpha*grad(x_i), m<=iters, stopping early only when successive costs differ by less than 1e-20; for a convex quadratic cost and alpha <= 1/L costs never increase.", "quantifier": "all models, starts, alpha, iters (exact arithmetic)", "why_tests_cant": "all models", "anchors": ["src/learning/optim/grad_desc.rs:GradientDesc"]}
{"id": "C52", "title": "Stochastic optimisers visit every sample once per epoch", "statement": "In each epoch StochasticGD, AdaGrad and RMSProp evaluate the gradient on each training row (with its own target) exactly once, in the order of the permutation drawn; results have the length of the start vector.", "quantifier": "all data, models and generator outcomes", "why_tests_cant": "all random outcomes", "anchors": ["src/learning/optim/grad_desc.rs:StochasticGD", "src/learning/optim/grad_desc.rs:AdaGrad", "src/learning/optim/grad_desc.rs:RMSProp"]}
{"id": "C53", "title": "Adaptive optimisers take bounded steps", "statement": "Every AdaGrad step changes each parameter by at most alpha, every RMSProp step by at most learning_rate/sqrt(1-decay_rate), whatever the gradients.", "quantifier": "all gradient sequences (exact arithmetic)", "why_tests_cant": "all gradient histories", "anchors": ["src/learning/optim/grad_desc.rs:AdaGrad", "src/learning/optim/grad_desc.rs:RMSProp"]}
{"id": "C54", "title": "ConjugateGD never makes things worse and terminates", "statement": "The cost at the returned parameters is at most the cost at the start, for an arbitrary cost function, and the number of gradient evaluations is bounded by a function of iters and max alone.", "quantifier": "all cost functions and starting points (exact arithmetic with NaN)", "why_tests_cant": "arbitrary cost functions, nested loops", "anchors": ["src/learning/optim/fmincg.rs:ConjugateGD"]}
{"id": "C55", "title": "SVM coefficients and predictions", "statement": "After train all dual coefficients lie in [0,1] and sum to at most one; predict answers 1 or -1 according to the sign of the kernel expansion over the training rows; Err before training or for the wrong width.", "quantifier": "all data, kernels and generator outcomes", "why_tests_cant": "random outcomes", "anchors": ["src/learning/svm.rs:SVM::train", "src/learning/svm.rs:SVM::predict"]}
{"id": "C56", "title": "Gaussian-process prediction is the posterior mean", "statement": "predict(x) = m(x) + k(x,X)(K+noise*I)^{-1}(y-m(X)); get_posterior returns that mean and the posterior covariance k(x,x)-k(x,X)(K+noise*I)^{-1}k(X,x), symmetric; with zero noise it interpolates the training targets.", "quantifier": "all data, kernels and mean functions (exact arithmetic)", "why_tests_cant": "all reals", "anchors": ["src/learning/gp.rs:GaussianProcess"]}
{"id": "C57", "title": "Kernels are symmetric and positive semidefinite", "statement": "Every kernel satisfies k(x,y)=k(y,x); Gram matrices of linear, polynomial (integer degree, c>=0), squared-exponential kernels, and of sums and products of such kernels, are positive semidefinite; panics iff dimensions differ.", "quantifier": "all vectors and parameters (exact arithmetic)", "why_tests_cant": "all reals and all sizes", "anchors": ["src/learning/toolkit/kernel.rs:Kernel"]}
{"id": "C58", "title": "PCA keeps widths and centres", "statement": "After train on an r x c matrix, predict accepts exactly matrices with c columns and returns the centred data times the principal directions (n columns if n was requested); Err when n>c or before train; for every shape of training data, wide or tall.", "quantifier": "all shapes, n and histories of train calls", "why_tests_cant": "shape-dependent branches and history", "anchors": ["src/learning/pca.rs:PCA::train", "src/learning/pca.rs:PCA::predict"]}
{"id": "C59", "title": "Mixture-model weights are probability vectors", "statement": "with_weights is Err unless there are comp_count weights, all non-negative, and otherwise normalises them to sum to one; after each EM step the mixing weights are non-negative and sum to one; predict rows are non-negative and sum to one; covariance matrices are symmetric.", "quantifier": "all data and weights (exact arithmetic)", "why_tests_cant": "all reals", "anchors": ["src/learning/gmm.rs:GaussianMixtureModel"]}
{"id": "C60", "title": "Exponential distribution functions agree with each other", "statement": "For x>=0: logpdf = ln pdf, cdf' = pdf, cdf(0)=0, cdf increasing with limit 1, pdf > 0 (lambda > 0); panics iff x<0.", "quantifier": "all reals", "why_tests_cant": "all reals", "anchors": ["src/stats/dist/exponential.rs:Exponential"]}
{"id": "C61", "title": "Gaussian distribution functions agree with each other", "statement": "logpdf = ln pdf; pdf positive, symmetric about the mean and maximal there; the approximate cdf is increasing, in [0,1], symmetric and within the documented 0.003 of the true cdf; mean/variance constructors agree.", "quantifier": "all reals", "why_tests_cant": "all reals", "anchors": ["src/stats/dist/gaussian.rs:Gaussian"]}
{"id": "C62", "title": "Every model refuses to predict before training", "statement": "For every supervised and unsupervised model in the crate, predict on a freshly constructed (never successfully trained) model returns the UntrainedModel error and does not panic.", "quantifier": "all inputs and configurations", "why_tests_cant": "all inputs", "anchors": ["src/lib.rs:SupModel", "src/lib.rs:UnSupModel", "src/learning/error.rs:Error::new_untrained"]}
{"id": "C63", "title": "grad_cost is the number of rows times the derivative of cost", "statement": "For MeanSqError and CrossEntropyError (any number n of rows) grad_cost is entrywise n times the partial derivative of cost with respect to the outputs; it is the derivative itself exactly for single-row matrices or zero residuals.", "quantifier": "all outputs/targets (in the domain of ln), all sizes (exact arithmetic)", "why_tests_cant": "derivative at all points, all sizes", "anchors": ["src/learning/toolkit/cost_fn.rs:MeanSqError", "src/learning/toolkit/cost_fn.rs:CrossEntropyError"]}
{"id": "C64", "title": "Tree search is exact when the query's own leaf holds k rows", "statement": "KDTree::search and BallTree::search return k nearest rows whenever the leaf on the query's side of every split holds at least k rows; hence always for k=1, and for every k when the data fits one leaf.", "quantifier": "all data sets, leaf sizes, query points (KD: exact and binary64 arithmetic; Ball: exact)", "why_tests_cant": "all geometric configurations", "anchors": ["src/learning/knn/binary_tree.rs:BinaryTree::search", "src/learning/knn/binary_tree.rs:KDTree", "src/learning/knn/binary_tree.rs:BallTree"]}
{"id": "C65", "title": "When tree construction terminates", "statement": "In exact arithmetic build terminates iff every group of equal rows is smaller than leafsize; in binary64 a group of leafsize equal rows still makes it loop for ever.", "quantifier": "all data sets and leaf sizes", "why_tests_cant": "non-termination is not observable by a test", "anchors": ["src/learning/knn/binary_tree.rs:BinaryTree::select_split", "src/learning/knn/binary_tree.rs:BinaryTree::split"]}
{"id": "C66", "title": "DBSCAN labels no row that is not a core row", "statement": "After train a row has a label iff at least min_points rows lie closer than eps to it; border rows are reported as noise like every other non-core row.", "quantifier": "all data sets, eps and min_points (binary64, NaN and infinities included)", "why_tests_cant": "depends on every point configuration", "anchors": ["src/learning/dbscan.rs:DBSCAN::expand_cluster"]}
{"id": "C67", "title": "DBSCAN::predict uses the nearest row of the last training set if prediction was enabled for that training", "statement": "After any history of train and set_predictive calls whose last train ran with prediction enabled, predict gives each row the label of its nearest row in that training set when closer than eps and None otherwise; it is Err InvalidState with prediction disabled, and Err UntrainedModel when no training ran with prediction enabled.", "quantifier": "all histories, all data without NaN distances (binary64)", "why_tests_cant": "history-dependent state", "anchors": ["src/learning/dbscan.rs:DBSCAN::predict", "src/learning/dbscan.rs:DBSCAN::set_predictive"]}
{"id": "C68", "title": "A k-means centroid is finite exactly when it has rows", "statement": "Recomputing centroids for finite data gives a finite centroid for every cluster with at least one assigned row, and a NaN centroid for every cluster without; so training keeps finite centroids until some cluster loses all its rows.", "quantifier": "all finite data and assignments (exact arithmetic with NaN)", "why_tests_cant": "all assignments", "anchors": ["src/learning/k_means.rs:KMeansClassifier::update_centroids"]}
{"id": "C69", "title": "k-means++ succeeds exactly when k rows differ", "statement": "The k-means++ initialiser succeeds for every outcome of the generator when the data has at least k pairwise different rows, and panics for every outcome otherwise.", "quantifier": "all data, k and generator outcomes (exact arithmetic)", "why_tests_cant": "all generator outcomes", "anchors": ["src/learning/k_means.rs:KPlusPlus", "src/learning/k_means.rs:sample_discretely"]}
{"id": "C70", "title": "Unseen classes in Gaussian and Bernoulli naive Bayes", "statement": "A class c >= 1 without training rows is never predicted; if class 0 has no training rows then class 0 is predicted for every input.", "quantifier": "all finite training sets with at least two rows per class that occurs (Gaussian), all finite inputs (non-negative ones for Bernoulli)", "why_tests_cant": "depends on NaN propagation for every input", "anchors": ["src/learning/naive_bayes.rs:Gaussian::joint_log_lik", "src/learning/naive_bayes.rs:Bernoulli::joint_log_lik", "src/learning/naive_bayes.rs:NaiveBayes::get_classes"]}
{"id": "C71", "title": "L2 and elastic-net gradients belong to the squared norm", "statement": "The L2 gradient is entrywise the derivative of constant*||w||^2/2 (scaled as coded), and the elastic-net gradient the derivative of the L1 cost plus that penalty, away from zero.", "quantifier": "all weight matrices and constants (exact arithmetic)", "why_tests_cant": "derivative at every point", "anchors": ["src/learning/toolkit/regularization.rs:Regularization::reg_grad"]}
{"id": "C72", "title": "GradientDesc trajectory and stopping rule", "statement": "The result is x_m with x_0 = start, x_{i+1} = x_i - alpha*grad(x_i) and m <= iters; every step was taken at a cost differing by at least 1e-20 from the previous one (from 0 for the first), and if m < iters the cost at x_m is within 1e-20 of the previous one (of 0 if m = 0).", "quantifier": "all models, starts, alpha, iters (any arithmetic)", "why_tests_cant": "all cost functions and iteration counts", "anchors": ["src/learning/optim/grad_desc.rs:GradientDesc::optimize"]}
{"id": "C73", "title": "AdaGrad steps are bounded unless 0/0", "statement": "With tau > 0, or once some gradient component was not zero, each AdaGrad step changes that parameter by at most alpha; the whole run moves it by at most alpha*iters*rows.", "quantifier": "all gradient sequences and generator outcomes (exact arithmetic)", "why_tests_cant": "all gradient sequences", "anchors": ["src/learning/optim/grad_desc.rs:AdaGrad::optimize"]}
{"id": "C74", "title": "Gradient-descent training of LinRegressor is no worse than the zero model", "statement": "After train_with_optimization the sum of squared residuals is at most that of all-zero parameters.", "quantifier": "all data (exact arithmetic)", "why_tests_cant": "depends on the scale of the data", "anchors": ["src/learning/lin_reg.rs:LinRegressor::train_with_optimization", "src/learning/optim/grad_desc.rs:GradientDesc::default"]}
{"id": "C75", "title": "Gradient-descent training of LinRegressor on scaled data", "statement": "If |Z v|^2 <= L*rows*|v|^2 for all v, Z being the inputs with a column of ones, and 0.3*L <= 1, then the parameters found by train_with_optimization fit at least as well as zero parameters.", "quantifier": "all such data (exact arithmetic)", "why_tests_cant": "all data sets", "anchors": ["src/learning/lin_reg.rs:LinRegressor::train_with_optimization", "src/learning/optim/grad_desc.rs:GradientDesc::optimize"]}
{"id": "C76", "title": "Poisson GLM training returns a weighted least-squares fit of the counts", "statement": "For counts of at least 1e-10, GenLinearModel::new(Poisson).train returns the parameters minimising sum_i y_i (y_i - a - b.x_i)^2: the first working response equals the counts and the loop stops on its second pass.", "quantifier": "all data (exact arithmetic)", "why_tests_cant": "characterises the result for all reals; tests only look at a few data sets with loose tolerances", "anchors": ["src/learning/glm.rs:GenLinearModel::train", "src/learning/glm.rs:Poisson"]}
{"id": "C77", "title": "GLM training fails cleanly", "statement": "GenLinearModel::train returns InvalidData when rows and targets differ in number, and neither an error nor a panic changes the parameters of the model.", "quantifier": "all criteria, models and data", "why_tests_cant": "all histories and data", "anchors": ["src/learning/glm.rs:GenLinearModel::train"]}
{"id": "C78", "title": "Kernel values are bounded by the kernel at zero distance", "statement": "For positive amplitude and non-zero length scale SquaredExp and Exponential take values in (0, ampl], and RationalQuadratic (alpha>0) values in (0,1]; k(x,x) is the upper bound.", "quantifier": "all vectors and parameters (exact arithmetic)", "why_tests_cant": "all reals and dimensions", "anchors": ["src/learning/toolkit/kernel.rs:SquaredExp", "src/learning/toolkit/kernel.rs:Exponential", "src/learning/toolkit/kernel.rs:RationalQuadratic"]}
{"id": "C79", "title": "Gaussian-process uncertainty is a variance, and failed training is clean", "statement": "For a positive semidefinite kernel and non-negative noise the posterior variances returned by get_posterior lie between 0 and the prior variance k(x,x). A train call that panics or returns Err leaves the model unchanged. It returns Err exactly when the Cholesky decomposition fails; a kernel, solver or target-count failure panics instead.", "quantifier": "all data and kernels (exact arithmetic)", "why_tests_cant": "all reals; error paths", "anchors": ["src/learning/gp.rs:GaussianProcess::get_posterior", "src/learning/gp.rs:GaussianProcess::train"]}
{"id": "C80", "title": "SVM training follows the Pegasos rule", "statement": "The coefficients after SVM::train are those of the kernelised Pegasos algorithm the documentation names: at step t the count of the drawn row i goes up iff y_i/(lambda*t) * sum_j count_j y_j k(x_i,x_j) < 1.", "quantifier": "all data and generator outcomes", "why_tests_cant": "needs a specification of the algorithm; outcomes are random", "anchors": ["src/learning/svm.rs:SVM::train"]}
{"id": "C81", "title": "What SVM training computes", "statement": "Coefficient i is the share of steps t that draw row i and have y_i * sum_j k(x_i,x_j) < lambda*t. Rows with y_i * sum_j k(x_i,x_j) >= lambda*(optim_iters-1) always get 0; if the kernel is positive and all rows with positive targets are such, predict answers the same for every input.", "quantifier": "all data, kernels, lambda > 0 and generator outcomes (exact arithmetic with infinities and NaN)", "why_tests_cant": "random outcomes, all data", "anchors": ["src/learning/svm.rs:SVM::train", "src/learning/svm.rs:SVM::predict"]}
{"id": "C82", "title": "Samples follow the distribution functions", "statement": "Given a standard draw n, the Exponential sample is non-negative and at most x iff n <= lambda*x, where cdf(x) equals the standard cdf at lambda*x; the Gaussian sample is at most x iff n <= (x-mean)/sd, where cdf(x) equals the standard cdf at (x-mean)/sd.", "quantifier": "all parameters, draws and x (exact arithmetic)", "why_tests_cant": "all reals", "anchors": ["src/stats/dist/exponential.rs:Exponential", "src/stats/dist/gaussian.rs:Gaussian"]}
{"id": "C83", "title": "compute_grad returns the summed gradient next to the mean cost", "statement": "For a network of Linear and differentiable activation layers of any depth, compute_grad returns the mean cost plus the regularisation cost; its gradient is the number of rows times the gradient of the mean cost, plus the regulariser's gradient.", "quantifier": "all networks, weights, batches, criteria (exact arithmetic)", "why_tests_cant": "derivative at all points; all depths and batch sizes", "anchors": ["src/learning/nnet/mod.rs:BaseNeuralNet::compute_grad", "src/learning/nnet/mod.rs:MSECriterion", "src/learning/nnet/mod.rs:BCECriterion"]}
{"id": "C84", "title": "Neural-network training panics, instead of returning Err, on shapes that do not fit", "statement": "With at least one iteration, training a network without layers, with input columns that do not fit the layers, or with targets of the wrong width ends in a panic (gradient descent also when the row counts differ); the stochastic optimisers never return a model in the first three cases.", "quantifier": "all networks, inputs, targets, optimiser settings", "why_tests_cant": "all layer stacks and shapes", "anchors": ["src/learning/nnet/mod.rs:NeuralNet::train", "src/learning/nnet/mod.rs:BaseNeuralNet::compute_grad"]}
{"id": "C85", "title": "PCA projects onto the singular directions in every usable history", "statement": "For a PCA model that was only ever trained on data with at least as many rows as columns, or was last trained on wide data with all components requested, predict returns the data minus the training means times the right singular vectors of the prepared training data, in min(rows, requested) columns; components() are those vectors (transposed for wide data).", "quantifier": "all histories of train calls of that kind, all data (exact arithmetic, svd assumed correct)", "why_tests_cant": "all shapes, data and histories", "anchors": ["src/learning/pca.rs:PCA::train", "src/learning/pca.rs:PCA::predict", "src/learning/pca.rs:PCA::components"]}
{"id": "C86", "title": "PCA directions are principal", "statement": "On its own training data a usable PCA model returns mutually orthogonal columns (of mean zero when centring), and the sum of squares of column j is the largest among all unit directions orthogonal to the first j directions.", "quantifier": "all data (exact arithmetic, svd assumed correct)", "why_tests_cant": "a maximum over all directions", "anchors": ["src/learning/pca.rs:PCA::train", "src/learning/pca.rs:PCA::predict"]}
{"id": "C87", "title": "Mixture-model predictions are Bayes posteriors and training is expectation-maximisation", "statement": "predict returns, for every row and component, the weight of the component times its Gaussian density divided by the density of the mixture; a training round either stops because the log-likelihood changed by less than 1e-15 or replaces weights, means and covariances by the weighted frequencies, means and covariances (full, diagonal, or with eps on the diagonal) under these posteriors; training starts from distinct data rows and the sample covariance of the data.", "quantifier": "all models with positive weights, all data, every number of rounds, every random choice (exact arithmetic)", "why_tests_cant": "all reals and all iterations", "anchors": ["src/learning/gmm.rs:GaussianMixtureModel::membership_weights", "src/learning/gmm.rs:GaussianMixtureModel::update_params", "src/learning/gmm.rs:GaussianMixtureModel::train"]}
{"id": "C88", "title": "Mixture models never fit degenerate data", "statement": "With the full or diagonal covariance option and at least one iteration, train on data with a constant column never returns Ok; with the full option neither does train on data with at most as many rows as columns.", "quantifier": "all such data and models, every random choice (exact arithmetic)", "why_tests_cant": "all reals", "anchors": ["src/learning/gmm.rs:GaussianMixtureModel::train", "src/learning/gmm.rs:GaussianMixtureModel::membership_weights"]}
{"id": "C89", "title": "ConjugateGD keeps a stationary start", "statement": "Started at a point where the gradient vanishes, optimize returns that point.", "quantifier": "all cost functions with numeric gradients and costs that are not NaN, all configurations with non-negative parameters (exact arithmetic with infinities and NaN)", "why_tests_cant": "arbitrary cost functions and all reals", "anchors": ["src/learning/optim/fmincg.rs:ConjugateGD"]}
{"id": "C90", "title": "Retraining replaces the model (models without memory)", "statement": "For nearest neighbours (brute force and trees), k-means, DBSCAN (predict mode unchanged), naive Bayes, linear, logistic and generalized linear regression, Gaussian processes, the SVM, and PCA (when no earlier data was wide or the new data is): after any history of successful and failed train calls, a successful train can leave a state exactly when it can leave that state on the initial model.", "quantifier": "all histories of train calls, all data, all answers of the random and numerical routines", "why_tests_cant": "history property", "anchors": ["src/learning/knn/mod.rs:KNNClassifier::train", "src/learning/k_means.rs:KMeansClassifier::train", "src/learning/dbscan.rs:DBSCAN::train", "src/learning/naive_bayes.rs:NaiveBayes::train", "src/learning/lin_reg.rs:LinRegressor::train", "src/learning/logistic_reg.rs:LogisticRegressor::train", "src/learning/glm.rs:GenLinearModel::train", "src/learning/gp.rs:GaussianProcess::train", "src/learning/svm.rs:SVM::train", "src/learning/pca.rs:PCA::train"]}
{"id": "C91", "title": "A failed train changes no prediction (all models but naive Bayes)", "statement": "For every model of the crate except naive Bayes, if train returns Err, every later predict gives what it gave before the call; DBSCAN, the SVM and neural networks never return Err from train.", "quantifier": "all states, all histories, all inputs", "why_tests_cant": "history and error-path property", "anchors": ["src/learning/knn/mod.rs:KNNClassifier::train", "src/learning/k_means.rs:KMeansClassifier::train", "src/learning/lin_reg.rs:LinRegressor::train", "src/learning/logistic_reg.rs:LogisticRegressor::train", "src/learning/glm.rs:GenLinearModel::train", "src/learning/gp.rs:GaussianProcess::train", "src/learning/pca.rs:PCA::train", "src/learning/gmm.rs:GaussianMixtureModel::train"]}
{"id": "C92", "title": "Models refuse to predict until a train call has succeeded", "statement": "For every model of the crate except neural networks (and DBSCAN with predict mode off): after any history of train calls that all failed, predict on any input is the UntrainedModel error.", "quantifier": "all configurations, all histories of failed calls, all inputs", "why_tests_cant": "all inputs and histories", "anchors": ["src/lib.rs:SupModel", "src/lib.rs:UnSupModel", "src/learning/error.rs:Error::new_untrained"]}
{"id": "C93", "title": "k-fold scores are those of fresh models (models without memory)", "statement": "For any model that retraining replaces (C90), each score of k_fold_validate is the score of the initial model trained on that split's training rows alone.", "quantifier": "all such models, data, scores and splits", "why_tests_cant": "depends on the history of train calls made on the same model object", "anchors": ["src/analysis/cross_validation.rs:k_fold_validate"]}
{"id": "C94", "title": "Exponential and rational quadratic kernels are valid covariances", "statement": "The Gram matrix of any finitely many points under Exponential (ampl >= 0) and RationalQuadratic (alpha > 0) is positive semidefinite in every dimension, so they may be used wherever a covariance is needed (gp.rs); Multiquadric never has this property in dimension >= 1, and HyperTan does not have it for c < 0.", "quantifier": "all dimensions, point sets and parameters (exact arithmetic)", "why_tests_cant": "It quantifies over every point set and every coefficient vector; a test evaluates single pairs of points.", "anchors": ["src/learning/toolkit/kernel.rs::Exponential", "src/learning/toolkit/kernel.rs::RationalQuadratic", "src/learning/toolkit/kernel.rs::Multiquadric", "src/learning/toolkit/kernel.rs::HyperTan"]}
{"id": "C95", "title": "Gradient descent converges at rate 1/iterations on convex costs", "statement": "On a convex cost with L-Lipschitz gradient and alpha * L <= 1, GradientDesc::optimize never panics and its result w satisfies, against every point q, 2 * alpha * iters * (f(w) - f(q)) <= |start - q|^2 when all iterations run; if it stops early because two successive costs differ by less than 1e-20, f(w) - f(q) <= sqrt(2e-20/alpha) * |start - q|; the only other case is stopping before the first step because |f(start)| < 1e-20.", "quantifier": "all convex smooth costs, dimensions, starts, step sizes, iteration counts and comparison points (exact arithmetic)", "why_tests_cant": "A quantitative guarantee against every competitor point and every cost function.", "anchors": ["src/learning/optim/grad_desc.rs::GradientDesc::optimize"]}
{"id": "C96", "title": "Gradient-descent training of linear and logistic regression nears the optimum", "statement": "If every sample x has 1 + |x|^2 <= L: LogisticRegressor::train with GradientDesc (alpha * L <= 4) succeeds, ends with a log loss no worse than the starting parameters (all 0.5), and within |start - q|^2 / (2 * alpha * iters) of the log loss of every parameter vector q (or it stopped early with an explicit smaller gap); LinRegressor::train_with_optimization (fixed step 0.3, 100 iterations, 0.3 * L <= 1) succeeds and its residual sum of squares is within rows * |q|^2 / 30 of that of every q, up to the same early exits.", "quantifier": "all data sets with bounded rows, step sizes, iteration counts and competitors (exact arithmetic)", "why_tests_cant": "A bound against every parameter vector for every training set; a test checks single fitted models.", "anchors": ["src/learning/logistic_reg.rs::LogisticRegressor::train", "src/learning/lin_reg.rs::LinRegressor::train_with_optimization", "src/learning/optim/grad_desc.rs::GradientDesc::optimize"]}
{"id": "C97", "title": "Training a Gaussian mixture never lowers the likelihood", "statement": "With CovOption::Full or Diagonal, every round of train (posterior weights, then new weights, means and covariances) leaves the log-likelihood of the training data at least as high as before, so the trained model is at least as likely as the starting model (data rows as means, data covariance). (Regularized adds eps divided by the component's total weight and is not covered.)", "quantifier": "all data sets, dimensions, numbers of components, starting rows and iteration counts (exact arithmetic, LU assumed to return inverse and determinant)", "why_tests_cant": "The inequality holds for all real data; a test can only see it on samples and up to rounding.", "anchors": ["src/learning/gmm.rs::GaussianMixtureModel::train", "src/learning/gmm.rs::GaussianMixtureModel::update_params", "src/learning/gmm.rs::GaussianMixtureModel::membership_weights"]}
{"id": "C98", "title": "k-means training reaches a fixed point", "statement": "With exact arithmetic, for every data set and start there is a positive tolerance below which KMeansClassifier::train with at least k^rows iterations ends at centroids where every row is at its closest centroid and every centroid is the mean of its rows, unless a centroid loses all its rows on the way. The tolerance in the code is the constant 1e-14, so data of scale 1e-9 can stop after one iteration away from a fixed point. In general training takes steps until the objectives at the start of two successive steps (zero before the first) differ by less than the tolerance, and otherwise exactly as many steps as the iteration limit says.", "quantifier": "all data, k, starts and tolerances below a data-dependent threshold (exact arithmetic with NaN)", "why_tests_cant": "Convergence for every data set and start; a test sees single runs, and the bound k^rows is out of reach of any test.", "anchors": ["src/learning/k_means.rs::KMeansClassifier::train"]}
{"id": "C99", "title": "The order of the training rows does not matter", "statement": "Reordering the samples (rows together with their targets) leaves unchanged: the outcome of LinRegressor training (closed form and gradient descent), of LogisticRegressor training with an optimiser that sees the data through cost and gradient only, of GLM training (Bernoulli, Poisson, Normal), of successful naive Bayes training, of k-means from given centroids, the fitted MinMaxScaler and Standardizer, accuracy, the confusion matrix and the mean squared error; DBSCAN finds the same clusters (up to their numbers) and the same noise rows.", "quantifier": "all data sets and all reorderings (exact arithmetic with infinities and NaN; GLM over the reals; DBSCAN and accuracy in binary64)", "why_tests_cant": "A relation between two runs, for every data set and every one of the n! orders.", "anchors": ["src/learning/lin_reg.rs::LinRegressor::train", "src/learning/logistic_reg.rs::LogisticRegressor::train", "src/learning/glm.rs::GenLinearModel::train", "src/learning/naive_bayes.rs::NaiveBayes::train", "src/learning/k_means.rs::KMeansClassifier::train", "src/learning/dbscan.rs::DBSCAN::train", "src/data/transforms/minmax.rs::MinMaxFitter::fit", "src/data/transforms/standardize.rs::StandardizerFitter::fit", "src/analysis/score.rs::accuracy", "src/analysis/confusion_matrix.rs::confusion_matrix"]}
{"id": "C100", "title": "Classification scores in binary64", "statement": "With f64 arithmetic accuracy is the correctly rounded fraction of right answers: in [0, 1], 1 exactly when all answers are right, 0 exactly when none is; of two predictors the one with more right answers always has the strictly larger accuracy. precision, recall and f1 are the correctly rounded TP/(TP+FP), TP/(TP+FN) and 2TP/(2TP+FP+FN), and NaN when the denominator is 0.", "quantifier": "all label lists of equal length below 2^53 (2^52 for the two-class scores)", "why_tests_cant": "The claim is for every length and every pair of counts; a test cannot rule out a tie or a rounded-up 1 for some large counts.", "anchors": ["src/analysis/score.rs::accuracy", "src/analysis/score.rs::precision", "src/analysis/score.rs::recall", "src/analysis/score.rs::f1"]}
{"id": "C101", "title": "Kernels in binary64", "statement": "Whatever the platform's exp, pow, tanh and sqrt, every kernel of the toolkit, and sums and products of symmetric kernels, give bit-identical results with the two vectors exchanged. With an exp that is exact at 0 and maps the non-positive numbers into [0, 1], SquaredExp and Exponential stay between 0 and the amplitude and are exactly the amplitude for equal vectors, even if intermediate sums overflow.", "quantifier": "all binary64 parameters and vectors (finite vectors for the range), any elementary function library", "why_tests_cant": "Bitwise symmetry for all inputs and all math libraries; tests see one library and a few vectors.", "anchors": ["src/learning/toolkit/kernel.rs::Kernel::kernel"]}
{"id": "C102", "title": "Mean squared error score in binary64", "statement": "For finite outputs and targets neg_mean_squared_error is never NaN and never positive; when it does not overflow it is within a relative error of about (4+cols+rows) 2^-53, plus a multiple of the smallest number, of the exact value, and it is zero for equal matrices. It can be zero for different matrices by underflow.", "quantifier": "all finite matrices of equal shape with at least one row", "why_tests_cant": "An error bound for all shapes and values; tests compare single values with a tolerance picked by hand.", "anchors": ["src/analysis/score.rs::neg_mean_squared_error"]}
{"id": "C103", "title": "Nearest neighbours by true distance in binary64", "statement": "BruteForce::search in f64 arithmetic returns k different rows such that no other row is truly closer by more than a relative 2^-29 (and an absolute 2^-524), and the distances it reports are the true ones up to a relative 2^-31.", "quantifier": "all data and query points with entries up to 2^500, up to 2^20 columns, all 1 <= k <= rows", "why_tests_cant": "Rounding could swap rows; a bound for all data needs an error analysis rather than examples.", "anchors": ["src/learning/knn/brute_force.rs::BruteForce::search", "src/learning/knn/mod.rs::dist"]}
{"id": "C104", "title": "k-means assignments by true distance in binary64", "statement": "KMeansClassifier::predict in f64 arithmetic answers for every row a centroid whose true squared distance exceeds that of any other centroid by at most a relative 2^-29 (and an absolute 2^-1052).", "quantifier": "all centroids and rows with entries up to 2^500, up to 2^20 columns", "why_tests_cant": "Rounding could swap centroids; a bound for all data needs an error analysis rather than examples.", "anchors": ["src/learning/k_means.rs::KMeansClassifier::predict", "src/learning/k_means.rs::KMeansClassifier::find_closest_centroids"]}
{"id": "C105", "title": "Accuracy of linear predictions in binary64", "statement": "A finite prediction of LinRegressor differs from the exact b + w.x by at most ((1+2^-53)^(n+1) - 1) times |b| + sum |w_i x_i|, plus n times the smallest number, n being the number of parameters.", "quantifier": "all parameters and inputs with a finite result", "why_tests_cant": "A bound for all inputs and dimensions, including cancellation; tests check single values.", "anchors": ["src/learning/lin_reg.rs::LinRegressor::predict"]}
{"id": "C106", "title": "Predictions and transformations work row by row", "statement": "For every model and transformer with a predict or transform method, answering a batch succeeds exactly when answering each of its rows alone does, and gives the same answers in the same order. No answer depends on the other rows of the batch.", "quantifier": "all trained models, all batches, any arithmetic", "why_tests_cant": "Quantifies over all batches and every model; a test compares a few rows of one model.", "anchors": ["src/learning/knn/mod.rs::KNNClassifier::predict", "src/learning/k_means.rs::KMeansClassifier::predict", "src/learning/dbscan.rs::DBSCAN::predict", "src/learning/lin_reg.rs::LinRegressor::predict", "src/learning/logistic_reg.rs::LogisticRegressor::predict", "src/learning/glm.rs::GenLinearModel::predict", "src/learning/svm.rs::SVM::predict", "src/learning/gp.rs::GaussianProcess::predict", "src/learning/naive_bayes.rs::NaiveBayes::predict", "src/learning/pca.rs::PCA::predict", "src/learning/gmm.rs::GaussianMixtureModel::predict", "src/learning/nnet/mod.rs::NeuralNet::predict", "src/data/transforms/minmax.rs::MinMaxScaler::transform", "src/data/transforms/standardize.rs::Standardizer::transform", "src/data/transforms/normalize.rs::Normalizer::transform"]}
{"id": "C107", "title": "Scores agree with the confusion matrix", "statement": "Accuracy is the trace of the confusion matrix over its total; precision, recall and f1 are the usual quotients of the cells of the two-class matrix. Exchanging predictions and targets transposes the matrix, exchanges precision and recall, and keeps accuracy and f1.", "quantifier": "all lists of outputs and targets, any label type with decidable equality and a total order", "why_tests_cant": "Relates two modules over all inputs; each is tested alone on short lists.", "anchors": ["src/analysis/confusion_matrix.rs::confusion_matrix", "src/analysis/score.rs::accuracy", "src/analysis/score.rs::precision", "src/analysis/score.rs::recall", "src/analysis/score.rs::f1"]}
{"id": "C108", "title": "DBSCAN: larger eps or smaller min_points coarsens the clustering", "statement": "Training the same rows with a larger eps or a smaller min_points leaves every labelled row labelled, and rows of one cluster in one cluster.", "quantifier": "all data (NaN and infinities included), all eps and min_points, binary64", "why_tests_cant": "Compares two runs over all data and parameters.", "anchors": ["src/learning/dbscan.rs::DBSCAN::train", "src/learning/dbscan.rs::DBSCAN::expand_cluster", "src/learning/dbscan.rs::DBSCAN::region_query"]}
{"id": "C109", "title": "DBSCAN in binary64 against exact DBSCAN", "statement": "The clustering computed in binary64 is coarser than the exact clustering for eps smaller by a factor of about 1 + 2^-31 and finer than the exact one for eps larger by that factor; if no distance of two rows lies in between it is the exact clustering.", "quantifier": "all data with entries up to 2^500, up to 2^20 columns, any number of rows", "why_tests_cant": "A statement about rounding for all data; tests compare a few clusterings.", "anchors": ["src/learning/dbscan.rs::DBSCAN::train", "src/learning/dbscan.rs::DBSCAN::region_query"]}
{"id": "C110", "title": "Moving, scaling or rotating the data changes no cluster and no neighbour", "statement": "If a map multiplies all distances between the rows by s > 0 (translations, scalings, reflections, rotations, other orders of the features), DBSCAN with eps multiplied by s gives the same labels, exhaustive search the same rows in the same order with distances multiplied by s, and the nearest-neighbour classifier the same labels.", "quantifier": "all data, all such maps, exact arithmetic", "why_tests_cant": "Quantifies over all data and all similarity maps.", "anchors": ["src/learning/dbscan.rs::DBSCAN::train", "src/learning/knn/brute_force.rs::BruteForce::search", "src/learning/knn/mod.rs::KNNClassifier::predict"]}
{"id": "C111", "title": "One-neighbour classification recalls the training targets", "statement": "With k = 1, predicting the training rows gives each row the target of a training row equal to it, whichever searcher is used. In binary64: of a row at most 2^-524 away.", "quantifier": "all training data and targets; exhaustive search, k-d trees and ball trees; any leaf size", "why_tests_cant": "Quantifies over all data, trees and ties.", "anchors": ["src/learning/knn/mod.rs::KNNClassifier::predict", "src/learning/knn/brute_force.rs::BruteForce::search", "src/learning/knn/binary_tree.rs::BinaryTree::search"]}
{"id": "C112", "title": "DBSCAN recurses at most once per row, and can recurse that deep", "statement": "Training on n rows never needs more than n nested calls of expand_cluster; for every n there are n rows (points in a line) for which n nested calls are needed, so the stack needed grows with the data.", "quantifier": "all data; all n >= 2 for the bound reached", "why_tests_cant": "A statement about the depth for every size; a test only shows that one size does not overflow the stack.", "anchors": ["src/learning/dbscan.rs::DBSCAN::expand_cluster", "src/learning/dbscan.rs::DBSCAN::train"]}
{"id": "C113", "title": "The Gaussian cdf is within 0.0035 of the true distribution function", "statement": "For every mean, positive variance and x, Gaussian::cdf(x) differs from the integral of the normal density up to x by at most 0.0035 (in exact arithmetic).", "quantifier": "all means, variances and arguments", "why_tests_cant": "An error bound over the whole real line; a test samples points.", "anchors": ["src/stats/dist/gaussian.rs::Gaussian::cdf"]}
{"id": "C114", "title": "Scaled data does not depend on units, and scaling twice changes nothing", "statement": "Fitting a MinMaxScaler or a Standardizer on data and on the same data in other units (each column multiplied by its own positive factor and shifted by its own offset) gives scalers whose transform yields the same result on corresponding data; normalising rows in the Euclidean norm gives the same result when each row is multiplied by its own positive factor; and fitting and transforming data that was already transformed leaves it unchanged.", "quantifier": "all data, all positive unit factors and offsets per column or row, all target ranges / means / deviations (exact arithmetic)", "why_tests_cant": "A relation between two runs over every choice of units; a test compares a few tables.", "anchors": ["src/data/transforms/minmax.rs::MinMaxScaler", "src/data/transforms/standardize.rs::Standardizer", "src/data/transforms/normalize.rs::Normalizer"]}
{"id": "C115", "title": "The data transforms are accurate in binary64", "statement": "In the arithmetic the library runs on: a min-max scaled entry is finite, within a few roundings (an explicit bound) of the exact value, and within the target range up to that bound; undoing the scaling returns the data up to an explicit rounding bound; neither the min-max scaler nor the standardizer ever reverses the order of two values of a column, on any data; a row of n entries normalised in the Euclidean norm has length 1 within (2n+12) units of 2^-53 unless its length is below 2^-450 or its entries above 2^500; outside that range the normaliser can leave a row as it is (2^-600) or refuse it (2^600).", "quantifier": "all binary64 data of moderate size (range, round trip, length); all binary64 data with finite outputs (order)", "why_tests_cant": "Rounding errors depend on every bit of the data; a test sees a few numbers.", "anchors": ["src/data/transforms/minmax.rs::MinMaxScaler", "src/data/transforms/standardize.rs::Standardizer", "src/data/transforms/normalize.rs::Normalizer"]}
{"id": "C116", "title": "Constructors accept exactly the parameters they document", "statement": "`GradientDesc::new`, `StochasticGD::new`, `AdaGrad::new`, `RMSProp::new` and `DBSCAN::new` panic on every f64 parameter outside the documented range (a step size, momentum, radius or epsilon that is zero, negative or NaN; a negative or NaN tau; a decay rate outside (0,1)) and on nothing else, and otherwise keep the parameters unchanged. `GaussianMixtureModel::with_weights` refuses, with an error value, exactly the weight vectors of the wrong length or with a negative entry; a NaN weight is accepted.", "quantifier": "All binary64 parameter values, including NaN, infinities, subnormals and both zeros; all iteration counts; all weight vectors.", "why_tests_cant": "Tests try one bad value per check. The claim is an equivalence over the whole f64 type, where NaN makes `x > 0` and `!(x <= 0)` differ.", "anchors": ["src/learning/optim/grad_desc.rs: GradientDesc::new, StochasticGD::new, AdaGrad::new, RMSProp::new", "src/learning/dbscan.rs: DBSCAN::new", "src/learning/gmm.rs: GaussianMixtureModel::with_weights"]}
{"id": "C117", "title": "Least squares does not depend on the units, the origin or the order of the features", "statement": "Training `LinRegressor` (or `GenLinearModel` with the normal family) on the same observations described by other features - other units and origins, another order of the columns, or any change that keeps the affine functions - gives the same predictions. The predictions are linear in the targets and follow their units and origin. Giving every observation k times changes nothing. This holds at every training row, and at new rows whenever the training rows determine the fit there (always when they have full rank).", "quantifier": "All data over the reals for which both training calls succeed; all invertible changes of features; all linear combinations of targets; any linear solver that returns only solutions.", "why_tests_cant": "An equivariance law relates infinitely many pairs of training runs; a test compares one pair, up to a tolerance.", "anchors": ["src/learning/lin_reg.rs: LinRegressor::train, LinRegressor::predict", "src/learning/glm.rs: GenLinearModel::train, GenLinearModel::predict, Normal"]}
{"id": "C118", "title": "Kernel models see the inputs through the kernel only", "statement": "Rewriting all inputs (training and test) by a map that keeps the kernel values changes nothing for SVM::predict (for the same random draws) nor for GaussianProcess train, predict and get_posterior, in any arithmetic and for any kernel. Over the real numbers every kernel of the library, and all sums and products, are kept by maps preserving inner products (rotations, reflections, another order of the features), and those depending on the distance only (squared exponential, exponential, multiquadric, rational quadratic) by all isometries, including moves. The linear kernel is not kept by moves.", "quantifier": "all arithmetics, kernels, inputs, targets, test inputs and random draws; all library kernels with their sums and products and all rigid maps for the geometric part", "why_tests_cant": "A test rotates one data set with one kernel; the claim is about all kernels, all rigid maps, all data and all random draws.", "anchors": ["src/learning/svm.rs: SVM::train, SVM::predict", "src/learning/gp.rs: GaussianProcess::train, predict, get_posterior", "src/learning/toolkit/kernel.rs: Kernel implementations"]}
{"id": "C119", "title": "Logistic predictions in binary64", "statement": "In binary64, with a library exponential that is non-negative, monotone and 1 at zero: every LogisticRegressor prediction whose score is not NaN is a finite number in [0, 1], predictions above one half have positive scores and below one half negative ones, and larger scores never get smaller predictions; the sigmoid is one half at both zeros, within (error of exp) + 2^-51 of the exact logistic function, and its derivative y(1-y) stays in [0, 1/4]. Scores of 40 or more give exactly 1, and then a single correctly classified row with target 1 makes the training cost of the whole batch NaN.", "quantifier": "all binary64 parameters and inputs (infinities included); any exponential with the stated properties", "why_tests_cant": "A test evaluates a few scores; the claim covers every binary64 score, including overflow, subnormals and ties in rounding, and every library exponential.", "anchors": ["src/learning/logistic_reg.rs: LogisticRegressor::predict, BaseLogisticRegressor::compute_grad", "src/learning/toolkit/activ_fn.rs: Sigmoid", "src/learning/toolkit/cost_fn.rs: CrossEntropyError"]}
{"id": "C120", "title": "ConjugateGD only takes Wolfe-Powell steps, and its trial steps minimise the fitted polynomial", "statement": "For a real-valued cost, the vector ConjugateGD::optimize returns is reached from the start by at most iters steps, each along some direction s with a step length z >= 0 such that cost(x + z s) <= cost(x) + rho z d and sig d < grad(x + z s).s <= -sig d, where d <= 0 is the slope at x along s; only after a failed line search are s and d those of steepest descent at the failed point instead. If the very first trial point meets these conditions the optimiser moves to it. Inside a line search the trial step is the local minimum of the cubic (or, when the cost rose, of the parabola) through the known values and slopes, an extrapolation being cut to one of the four documented safeguards, and an interpolation always stays at least the fraction int away from both ends of the bracket.", "quantifier": "for every real cost function and gradient, start vector, and non-negative parameters (trial-step formulas: every line-search state over the reals with a non-degenerate cubic)", "why_tests_cant": "a test follows one trajectory of one model; that every accepted step meets the Wolfe-Powell conditions, and that the interpolation formula is the minimiser of the fitted polynomial, concerns every cost function", "anchors": ["src/learning/optim/fmincg.rs: ConjugateGD::optimize"]}
{"id": "C121", "title": "Stochastic training is never much worse than the best fixed parameters", "statement": "When the cost of every single training row is a convex function of the parameters, the costs that StochasticGD (momentum alpha < 1) and AdaGrad (tau > 0) meet while they visit the rows add up to at most the cost of any fixed parameter vector u over the same passes plus an explicit excess, whatever random orders are drawn: for StochasticGD |start - u|^2 (1 - alpha)/(2 mu) plus a term proportional to the number of visits and to mu, for AdaGrad |start - u|^2 tau/(2 alpha) plus a term proportional to the square root of the number of visits. The visits are those of whole passes, each row once per pass, each followed by the documented update.", "quantifier": "for every number of parameters and rows, every convex row cost with bounded gradients along the run, every comparison vector, and every sequence of random orders", "why_tests_cant": "a test sees a few seeds and a few data sets; the regret bound is about all random orders and all comparison vectors at once", "anchors": ["src/learning/optim/grad_desc.rs: StochasticGD::optimize, AdaGrad::optimize"]}
{"id": "C122", "title": "More data and less noise never make a Gaussian process less certain; its predictions are linear in the targets", "statement": "For a symmetric kernel and sound linear solvers: if one Gaussian process is trained on the rows of another followed by further rows, with the same or a smaller noise, every posterior variance get_posterior reports is at most that of the other. Training on a linear combination of (mean-corrected) targets gives the linear combination of the (mean-corrected) predictions. The posterior covariance is the same for all targets, in every arithmetic. After a successful training the equations (K + noise I) w = d behind the textbook posterior formula have a solution for every right-hand side.", "quantifier": "for every kernel with symmetric values, every mean function, all data sets, targets, noise levels and query points for which the calls succeed", "why_tests_cant": "the claims compare the model with models trained on other data, noise levels and targets; a test compares finitely many pairs", "anchors": ["src/learning/gp.rs: GaussianProcess::train, predict, get_posterior"]}
{"id": "C123", "title": "Naive Bayes answers do not depend on how the training set is written down", "statement": "In exact arithmetic, training a naive Bayes classifier on a data set and asking it about rows gives the same answers when the same data is written down differently: features of the Gaussian classifier in other units (scaled by non-zero factors and shifted), the features of any of the three classifiers in another order, and the values 0 and 1 of a feature of the Bernoulli classifier exchanged. Renaming the classes renames the answers, wherever the best class is not tied.", "quantifier": "For all training sets in which every class occurs (twice and with spread in every feature for Gaussian, entries between 0 and 1 for Bernoulli, non-negative for Multinomial), all changes of units, orders of features, recodings and permutations of the classes, all rows asked about and all previous states of the two models.", "why_tests_cant": "It compares two training runs for infinitely many data sets and transformations; a test fixes one data set and usually one way to write it.", "anchors": ["src/learning/naive_bayes.rs:Gaussian", "src/learning/naive_bayes.rs:Bernoulli", "src/learning/naive_bayes.rs:Multinomial", "src/learning/naive_bayes.rs:NaiveBayes::predict"]}
{"id": "C124", "title": "k-means clusterings do not depend on the frame of reference", "statement": "Translating, rotating, reflecting, reordering the coordinates of or adding constant coordinates to all rows (training rows and queries alike) does not change which cluster a query gets: from moved starting centroids with the same settings the clusters are the same and the centroids are the moved centroids; with Forgy and random-partition initialisation the distribution of the clusters is the same; k-means++ picks the same rows from the same draws.", "quantifier": "every distance-preserving affine map between spaces of any dimensions, every data set and query set, every number of clusters, of iterations and tolerance; exact arithmetic with NaN means of empty clusters", "why_tests_cant": "A test can try a few shifts of a few data sets; it cannot show equality of distributions nor cover all motions and all runs, including those in which a cluster loses all its rows.", "anchors": ["src/learning/k_means.rs::KMeansClassifier::train", "src/learning/k_means.rs::KMeansClassifier::predict", "src/learning/k_means.rs::KMeansClassifier::update_centroids", "src/learning/k_means.rs::KMeansClassifier::find_closest_centroids", "src/learning/k_means.rs::Forgy", "src/learning/k_means.rs::RandomPartition", "src/learning/k_means.rs::KPlusPlus"]}
{"id": "C125", "title": "k-means++ chooses rows with probability proportional to squared distance", "statement": "After any number of centroids chosen by KPlusPlus, each row is the next centroid with probability equal to its squared distance to the nearest centroid chosen so far, divided by the sum of these squared distances over all rows.", "quantifier": "every data set, every number of centroids already chosen, every earlier draw; exact arithmetic, draws uniform on [0, sum)", "why_tests_cant": "A test sees finitely many draws of a generator; it can at best fail to reject a law, and only for the data sets tried.", "anchors": ["src/learning/k_means.rs::KPlusPlus::init_centroids", "src/learning/k_means.rs::sample_discretely"]}
{"id": "C126", "title": "k-means++ seeding is competitive with the best clustering", "statement": "On data with at least k different rows, the k-means objective of the centroids chosen by KPlusPlus, averaged over its random draws, is at most 8 (2 + ln k) times the objective of any k centres whatever.", "quantifier": "every data set with k different rows, every k, every competing set of centres; exact arithmetic, independent uniform draws", "why_tests_cant": "The optimum is NP-hard to compute, so a test has nothing to compare with; and the claim is about an expectation over all draws.", "anchors": ["src/learning/k_means.rs::KPlusPlus::init_centroids", "src/learning/k_means.rs::sample_discretely"]}
{"id": "C127", "title": "k-means training never ends worse than it started", "statement": "The sum of squared distances of the rows to their centroids after KMeansClassifier::train returns Ok is at most what it was for the centroids chosen by the initialiser.", "quantifier": "every data set, number of clusters, initialiser, draw and iteration limit", "why_tests_cant": "Whether a run makes things worse depends on the random starting centroids; a test sees a few runs on well-separated data.", "anchors": ["src/learning/k_means.rs::KMeansClassifier::train", "src/learning/k_means.rs::KMeansClassifier::update_centroids", "src/learning/k_means.rs::KMeansClassifier::find_closest_centroids"]}
{"id": "C128", "title": "k-means training ends no worse than it started while the first cluster keeps rows", "statement": "If in no iteration the first centroid loses all its rows, training ends with centroids whose finite members have an objective at most that of the starting centroids, even if other centroids became NaN on the way.", "quantifier": "every data set, number of clusters, starting centroids, tolerance and iteration limit; exact arithmetic with NaN", "why_tests_cant": "The runs in which clusters become empty are rare and depend on the draws.", "anchors": ["src/learning/k_means.rs::KMeansClassifier::train", "src/learning/k_means.rs::KMeansClassifier::update_centroids", "src/learning/k_means.rs::KMeansClassifier::find_closest_centroids"]}
{"id": "C129", "title": "Gradient descent reaches a near-stationary point on any smooth cost", "statement": "On any cost function with Lipschitz gradient (constant L, convex or not) and alpha <= 1/L, GradientDesc::optimize returns a point of the plain gradient-descent path, each step lowers the cost by at least alpha/2 times the squared length of the gradient, and among the m steps taken some visited point has squared gradient at most 2 (f(start) - inf f) / (alpha m). Stopping before the configured number of iterations happens only when the last gradient is below the tolerance or when the start has cost within 1e-20 of zero.", "quantifier": "every dimension, smooth cost function, starting point, step size at most 1/L and iteration count (exact arithmetic)", "why_tests_cant": "A statement about all smooth functions and all starting points; tests run the optimiser on a few quadratics.", "anchors": ["src/learning/optim/grad_desc.rs::GradientDesc::optimize"]}
{"id": "C130", "title": "Gradient descent converges geometrically on strongly convex costs", "statement": "On a mu-strongly convex cost with Lipschitz gradient and alpha <= 1/L, the excess cost after all iterations is at most (1 - alpha mu)^iters times the initial excess, unless the run stopped early with excess cost at most 1e-20/(alpha mu) or at a start of cost within 1e-20 of zero. Training LinRegressor by gradient descent on features that are not collinear is an instance: the parameters approach the least-squares ones at that rate.", "quantifier": "every dimension, strongly convex smooth cost, start, step size and iteration count; all training data satisfying the stated bounds (exact arithmetic)", "why_tests_cant": "Rates are statements about all functions of a class and all iteration counts.", "anchors": ["src/learning/optim/grad_desc.rs::GradientDesc::optimize", "src/learning/lin_reg.rs::LinRegressor::train_with_optimization"]}
{"id": "C131", "title": "Optimisers do not depend on the frame of the parameters", "statement": "If an objective is carried over to another coordinate frame by a map that keeps inner products (rotation, reflection, reordering, embedding), GradientDesc, ConjugateGD and StochasticGD return the carried-over parameters; reordering the parameters is invisible to AdaGrad and RMSProp as well, in any arithmetic. Hence LinRegressor trained by gradient descent predicts the same from rotated features, and LogisticRegressor from reordered ones.", "quantifier": "all objectives, frames, starts, hyper-parameters and random draws; all training data and query rows", "why_tests_cant": "Quantifies over all objectives and all inner-product-preserving maps; a test compares one pair of runs.", "anchors": ["src/learning/optim/grad_desc.rs::GradientDesc::optimize", "src/learning/optim/grad_desc.rs::StochasticGD::optimize", "src/learning/optim/grad_desc.rs::AdaGrad::optimize", "src/learning/optim/grad_desc.rs::RMSProp::optimize", "src/learning/optim/fmincg.rs::ConjugateGD::optimize", "src/learning/lin_reg.rs::LinRegressor::train_with_optimization", "src/learning/logistic_reg.rs::LogisticRegressor::train"]}
{"id": "C132", "title": "Logistic regression does not depend on the sign convention of a feature", "statement": "Training LogisticRegressor on features with the sign of one flipped (in the training and in the query rows) gives the same predictions.", "quantifier": "all training data, query rows and optimiser settings", "why_tests_cant": "A symmetry over all data sets; a test with symmetric data or enough iterations does not reveal the asymmetric start.", "anchors": ["src/learning/logistic_reg.rs::LogisticRegressor::train", "src/learning/logistic_reg.rs::LogisticRegressor::predict"]}
{"id": "C133", "title": "PCA keeps the jointly best directions", "statement": "After a training in which predict is usable (C85), the kept directions are orthonormal and jointly optimal: no other orthonormal directions of that number catch a larger total spread of the training rows, and no flat of that dimension - through any point when centring, through the origin otherwise - has a smaller total squared distance to the training rows than the reconstruction from the projected rows. With all components the reconstruction is exact.", "quantifier": "all training data, component counts and centring modes; compared with all orthonormal frames and all factorisations B W^T with any offset (exact arithmetic, sound SVD)", "why_tests_cant": "An optimum over a continuum of alternatives; tests compare with one reference output.", "anchors": ["src/learning/pca.rs::PCA::train", "src/learning/pca.rs::PCA::predict"]}
{"id": "C134", "title": "PCA does not stretch distances", "statement": "Rotated rows, of the training data or of new data, are never further apart than the original rows; with all components (and at least as many training rows as columns) they are exactly as far apart.", "quantifier": "all training data and all pairs of query rows (exact arithmetic, sound SVD)", "why_tests_cant": "For all pairs of points; in the new coordinates nothing can be compared entry by entry with the old ones.", "anchors": ["src/learning/pca.rs::PCA::train", "src/learning/pca.rs::PCA::predict"]}
{"id": "C135", "title": "Gaussian-process prediction solves penalised least squares", "statement": "With a positive semidefinite kernel and noise >= 0, predict returns the mean function plus the function that minimises (sum of squared residuals) + noise * (squared norm) among all finite combinations of kernel functions centred at any points; with noise > 0 it is the only minimiser; with noise 0 it interpolates with the smallest norm.", "quantifier": "all kernels, training data, noise levels, query points and competing kernel expansions (exact arithmetic, sound Cholesky and triangular solvers)", "why_tests_cant": "The competitors range over an infinite-dimensional function space.", "anchors": ["src/learning/gp.rs::GaussianProcess::train", "src/learning/gp.rs::GaussianProcess::predict"]}
{"id": "C136", "title": "Scaling the features first does not change the answers of models that do not depend on units", "statement": "Let a MinMaxScaler be fitted to the training rows for any proper target range, or a Standardizer for any non-zero target deviation when no feature is constant. Then it transforms every finite data set of the training width, and: linear regression, the generalised linear model with a normal response, and the Gaussian naive Bayes classifier, trained on the transformed rows and asked about transformed rows, give exactly the predictions the same model gives when trained and asked about the untransformed rows (for the regressions: at every row the training rows determine, in particular at the training rows).", "quantifier": "all training sets, all scaler settings, all query rows, all targets, all sound solvers (exact arithmetic)", "why_tests_cant": "The claim compares two pipelines on every data set; a test can only compare them on a few, and up to rounding.", "anchors": ["src/data/transforms/minmax.rs::MinMaxScaler::transform", "src/data/transforms/standardize.rs::Standardizer::transform", "src/learning/lin_reg.rs::LinRegressor::train", "src/learning/glm.rs::GenLinearModel::train", "src/learning/naive_bayes.rs::NaiveBayes::train"]}
{"id": "C137", "title": "Rotating to all principal components first does not change the answers of geometric models", "statement": "Let PCA be trained on at least as many rows as there are features with all components kept. Then predict moves all rows of that width by one rigid motion (a rotation or reflection, after a shift when centring). Hence k-means (from corresponding starts), DBSCAN, brute-force k-nearest-neighbour classification, linear regression, the normal generalised linear model, and support vector machines and Gaussian processes with a distance-based kernel give on rotated data exactly the answers they give on the data itself; without centring the latter two do so for every kernel of the library.", "quantifier": "all data sets, all downstream settings, all queries, all sound decompositions and solvers (exact arithmetic)", "why_tests_cant": "Equality of two trained pipelines for every data set and query cannot be sampled.", "anchors": ["src/learning/pca.rs::PCA::predict", "src/learning/pca.rs::PCA::train", "src/learning/k_means.rs::KMeansClassifier::train", "src/learning/dbscan.rs::DBSCAN::train", "src/learning/knn/mod.rs::KNNClassifier::predict", "src/learning/svm.rs::SVM::train", "src/learning/gp.rs::GaussianProcess::train"]}
{"id": "C138", "title": "Predictions of a trained GLM do not depend on the units of the features", "statement": "Train GenLinearModel on rows X and on the same rows measured in other units (x -> a x + b per feature, a not 0). Both models predict the same at every row.", "quantifier": "Every family, every data set on which training succeeds, every change of units.", "why_tests_cant": "Tests compare a prediction with a reference number in one unit; the failure needs a scale at which the stop test fires early.", "anchors": ["src/learning/glm.rs::GenLinearModel::train", "src/learning/glm.rs::GenLinearModel::predict"]}
{"id": "C139", "title": "GLM training passes are the same in every frame; only the number of passes can differ", "statement": "GenLinearModel training makes 1 to 8 passes of weighted least squares, stopping before the eighth exactly when the coefficients moved by less than 1e-10 in total. If the features are replaced by an invertible affine map of them, pass j gives the same fitted function, means and working responses; two models that stop after the same number of passes predict the same everywhere.", "quantifier": "Every family in the crate, every sound matrix inverse, every data set, every pair of frames with the same affine functions.", "why_tests_cant": "Equality of whole training paths under every change of frame cannot be enumerated.", "anchors": ["src/learning/glm.rs::GenLinearModel::train", "src/learning/glm.rs::GenLinearModel::predict", "src/learning/glm.rs::Criterion"]}
{"id": "C140", "title": "A family defined by a user is fitted by quasi-likelihood", "statement": "A user implements Criterion with a link g and a variance function V and keeps the default methods. The parameters that GenLinearModel::train stores solve the estimating equations sum (y_i - mu_i) / (V(mu_i) g'(mu_i)) x_i = 0 with mu_i = g^-1(x_i beta).", "quantifier": "Every link, every variance function, every data set on which training succeeds.", "why_tests_cant": "The trait is open: tests can only try the families that somebody wrote.", "anchors": ["src/learning/glm.rs::Criterion", "src/learning/glm.rs::GenLinearModel::train"]}
{"id": "C141", "title": "With the default methods of Criterion, training is weighted least squares on the raw targets", "statement": "For a Criterion that keeps the default methods, GenLinearModel::train stores the affine function closest to the targets y themselves in squared error with weights 1 / (V(y_i) g'(y_i)^2), for every link g; predict then applies the inverse link to it.", "quantifier": "Every link, every variance function positive at the targets, every sound matrix inverse, every data set on which training succeeds.", "why_tests_cant": "Tests check one family; the claim is about all of them and about minimality over all parameter vectors.", "anchors": ["src/learning/glm.rs::Criterion", "src/learning/glm.rs::GenLinearModel::train"]}
{"id": "C142", "title": "A Gaussian mixture model does not depend on the frame of the features, up to its stop test", "statement": "Train a GaussianMixtureModel on rows X and, with the same draws, on rows A x + b. If both trainings succeed, the two models give every point x and its image A x + b the same membership probabilities: for every invertible A with full covariances, for every change of units with diagonal ones, for every rigid motion with regularized ones. The only exception: one of the trainings returned its starting parameters because the log-likelihood of the start was within 1e-15 of the number stored before; rigid motions have no exception.", "quantifier": "All data, all invertible A and shifts b that suit the covariance option, all draws, all sound decompositions, all iteration limits.", "why_tests_cant": "The statement relates two random trainings for every affine map; the exception needs a unit in which the log-likelihood of the start is 0.", "anchors": ["src/learning/gmm.rs::GaussianMixtureModel::train", "src/learning/gmm.rs::GaussianMixtureModel::predict", "src/learning/gmm.rs::update_params", "src/learning/gmm.rs::membership_weights", "src/learning/gmm.rs::initialize_covariances"]}
{"id": "C143", "title": "Least squares training succeeds exactly when the data determine the answer", "statement": "With a linear solver that answers exactly the regular systems, LinRegressor::train succeeds if and only if there are as many targets as rows and the rows determine an affine function: only the zero affine function vanishes on all of them. In particular collinear features, or more features than rows, make training fail.", "quantifier": "All data sets, all targets, all exact solvers, all sizes.", "why_tests_cant": "Tests train on a few well-conditioned tables; that every other table with independent columns trains, and that every degenerate one fails, is a statement about all tables.", "anchors": ["src/learning/lin_reg.rs: SupModel::train for LinRegressor (lines 85-92)"]}
{"id": "C144", "title": "With positive noise a Gaussian process can be trained on every data set", "statement": "With a symmetric positive semidefinite kernel (C57 lists those of the crate), positive noise, and exact factorisation and triangular solvers, GaussianProcess::train succeeds for all inputs and targets of matching sizes, repeated and collinear rows included.", "quantifier": "All data sets and targets, all positive semidefinite kernels, all positive noise levels, all mean functions of the right size.", "why_tests_cant": "Whether the Cholesky factorisation of a kernel matrix can fail depends on the kernel and on all rows together; tests use a handful of points.", "anchors": ["src/learning/gp.rs: SupModel::train for GaussianProcess (lines 158-176)"]}
{"id": "C145", "title": "Gaussian mixture training succeeds exactly when the data vary enough for the covariance option", "statement": "With at least one iteration and a decomposition that succeeds on every positive definite matrix, GaussianMixtureModel::train succeeds, for every draw, if and only if there are two or more rows and: for full covariances only the zero affine function vanishes on all rows; for diagonal ones no column is constant; for regularized ones the constant is positive or the rows satisfy the condition for full covariances. No later round can fail. A model trained with success predicts every matrix of the right width. Training panics exactly when there are two or more rows but fewer than components.", "quantifier": "All data sets, component counts, initial weights, covariance options, iteration limits and draws.", "why_tests_cant": "Failure could arise in any of the rounds and from any draw; tests see one run.", "anchors": ["src/learning/gmm.rs: UnSupModel::train (lines 72-107), update_params (304-339), membership_weights (253-302), initialize_covariances (227-250)"]}
{"id": "C146", "title": "Generalised linear models train exactly when the data determine the answer", "statement": "With an exact matrix inverse, GenLinearModel::train with one of the four families of the crate (binomial: with positive weights for all rows) succeeds if and only if there are as many targets as rows and only the zero affine function vanishes on all rows. With fitting sizes and degenerate rows it panics. The targets play no role: working weights stay positive through all passes, whatever the targets are.", "quantifier": "All data sets, all real targets (also outside the range of the family), all four families, all exact inverses.", "why_tests_cant": "The weighted normal matrix changes in each pass with the targets and fitted values; tests train on a few tables.", "anchors": ["src/learning/glm.rs: SupModel::train (lines 93-139), criteria (lines 302-475)"]}
{"id": "C147", "title": "PCA training succeeds exactly when no more components are asked for than there are columns", "statement": "PCA::train succeeds if and only if no number of components was given or the number is at most the number of columns; otherwise it returns an InvalidData error. It does not depend on the number of rows (also fewer rows than columns), on centring, on earlier training or on the values, as long as the singular value decomposition of rulinalg answers; each real matrix of each size has such a decomposition.", "quantifier": "All data sets of any size, all numbers of components, models in any state, all decompositions of the documented shape that answer; the real and every other arithmetic.", "why_tests_cant": "Success for all shapes and all values cannot be tested; tests train on one small table.", "anchors": ["src/learning/pca.rs: UnSupModel::train (lines 165-200)"]}
{"id": "C148", "title": "The numbering of the units of a network does not matter", "statement": "If the inputs, the hidden units and the outputs of a neural network (linear and activation layers) are renumbered, and the weights moved accordingly, then predict returns the same outputs in the new numbering, and train started from the moved weights, with GradientDesc, ConjugateGD, StochasticGD, AdaGrad or RMSProp and with any regularisation, returns the moved weights of the original training, draw by draw.", "quantifier": "All stacks of linear (with and without bias) and smooth activation layers, all renumberings of all layers at once, all data sets, all weights, all five optimisers, all random draws; squared error or, after a final sigmoid, cross entropy.", "why_tests_cant": "There are factorially many renumberings and infinitely many weights; an off-by-one in the layout of the weight vector can cancel out on symmetric test cases.", "anchors": ["src/learning/nnet/mod.rs: predict, train, forward_prop, compute_grad (lines 66-430)", "src/learning/nnet/net_layer.rs: Linear, activation layers", "src/learning/optim/grad_desc.rs", "src/learning/optim/fmincg.rs"]}
{"id": "C149", "title": "Hidden units that start alike stay alike", "statement": "If renumbering hidden units leaves the starting weights of a network unchanged (for two units: same bias, same incoming and same outgoing weights), then it leaves the trained weights unchanged, whatever the data, the optimiser, the number of iterations and the random draws: training cannot tell such units apart. In particular with all starting weights equal all units of a hidden layer end up alike, which is why default weights must be random.", "quantifier": "All stacks of layers, data sets, optimisers of the crate and draws; all renumberings that keep inputs and outputs.", "why_tests_cant": "It is a statement about every training run; tests see a few.", "anchors": ["src/learning/nnet/mod.rs: train, compute_grad (lines 66-93, 327-393)", "src/learning/nnet/net_layer.rs: default_params (lines 143-149)"]}
{"id": "C150", "title": "Safe calls never make the unsafe code touch memory that is not its own", "statement": "No call of the public, safe API, with whatever arguments and in whatever order, in debug or release builds, makes one of the crate's unsafe blocks read outside a buffer or read uninitialised memory: the worst outcome of a wrong argument is an error or a panic.", "quantifier": "All searches, classifiers, networks with layers written by users, PCA models and k-means initialisers; all arguments and histories.", "why_tests_cant": "A stray read usually returns some number and the test passes; undefined behaviour is not observable by assertions.", "anchors": ["src/learning/knn/mod.rs: KNearest::add, dist (lines 172-220)", "src/learning/knn/binary_tree.rs: maybe_close, select_split (lines 124-133, 194-203, 276-329)", "src/learning/nnet/mod.rs: get_layer_weights, compute_grad, forward_prop (lines 307-430)", "src/learning/pca.rs: centering (lines 200-204)", "src/learning/k_means.rs: RandomPartition, KPlusPlus (lines 298-359)"]}
{"id": "C151", "title": "The unsafe code stays inside its buffers when used as intended", "statement": "Brute-force search never leaves its buffers, whatever the arguments. Building KD and ball trees stays inside the data. Searching a built tree, and predicting with a classifier on it, stays inside the buffers when at least one neighbour is asked for and the query has at least as many columns as the training data. PCA does after any history of trainings that returned. Networks of layers that supply as many parameters as they advertise do, however they were built and trained; compute_grad does for exactly as many parameters as the layers hold and returns for no other number. The initialisers of k-means do for all draws. In all these cases the answer is that of the checked code the other properties speak of.", "quantifier": "All data (NaN and infinities included: any arithmetic), all sizes, all numbers of neighbours, both build profiles, all draws, all layers.", "why_tests_cant": "The index computations depend on data and draws; a sanitizer run covers one execution.", "anchors": ["src/learning/knn/mod.rs: KNearest::add, dist (lines 172-220)", "src/learning/knn/brute_force.rs: search (lines 53-73)", "src/learning/knn/binary_tree.rs: select_split, search_leaf, search (lines 276-428)", "src/learning/nnet/mod.rs: get_layer_weights, compute_grad, forward_prop (lines 307-430)", "src/learning/pca.rs: predict, train, centering (lines 122-204)", "src/learning/k_means.rs: RandomPartition, KPlusPlus (lines 298-359)"]}
{"id": "C152", "title": "Logistic regression separates data that can be separated", "statement": "If an affine function separates the two classes of the training data with a margin, then LogisticRegressor trained with GradientDesc, with a step size below the limit and enough iterations (an explicit number, polynomial in the number of rows, the inverse margin and the inverse step size), classifies every training row correctly: predict answers more than one half on the rows with target 1 and less than one half on those with target 0. On such data there is no best fit: the loss can be made as small as one likes, and every parameter vector can be improved upon, so it is the iteration count that decides the parameters.", "quantifier": "All data sets with 0/1 targets, separating functions and margins, step sizes and iteration counts that meet the stated inequalities.", "why_tests_cant": "A test trains on a few separable data sets with settings that happen to work; it does not say which settings are enough.", "anchors": ["src/learning/logistic_reg.rs: LogisticRegressor::train, LogisticRegressor::predict", "src/learning/optim/grad_desc.rs: GradientDesc::optimize"]}
{"id": "C153", "title": "A network without hidden layers is linear or logistic regression", "statement": "NeuralNet::mlp with layer sizes [d, 1] is a regression: with the sigmoid activation its predictions are those of LogisticRegressor with the same parameters (intercept first), and with the linear activation those of LinRegressor. Its cost is that of the regression, and its gradient is the number of rows times the gradient of the regression. So training it with GradientDesc with step size alpha/n gives exactly the parameters that LogisticRegressor gets with step size alpha, or LinRegressor::train_with_optimization with its fixed 0.3, when both start at the same parameters; with the same step size the network takes steps n times as long.", "quantifier": "All data sets with at least one row, parameters, step sizes, iteration counts; no regularisation.", "why_tests_cant": "The two implementations are tested apart, on different data and with tolerances; a different intercept position, scaling or sign would not be noticed.", "anchors": ["src/learning/nnet/mod.rs: NeuralNet::mlp, BaseNeuralNet::compute_grad, BaseNeuralNet::forward_prop", "src/learning/nnet/net_layer.rs: Linear", "src/learning/logistic_reg.rs: LogisticRegressor", "src/learning/lin_reg.rs: LinRegressor::train_with_optimization"]}
{"id": "C154", "title": "DBSCAN gives the rows it was trained on their training labels", "statement": "A DBSCAN model in predict mode that was trained on a data set and is then asked to predict that data set answers exactly the labels training assigned, noise included. In exact arithmetic this holds for every data set, duplicates included. In binary64 it holds when the entries are finite, no computed distance is NaN and different rows have a positive computed distance; without the last condition (rows about 1e-162 apart) it can fail.", "quantifier": "All data sets with at least one row, all eps > 0 and all min_points.", "why_tests_cant": "Tests compare labels of a handful of well separated points.", "anchors": ["src/learning/dbscan.rs: DBSCAN::train, DBSCAN::predict"]}
{"id": "C155", "title": "The bundled data sets are what their documentation says, and can be trained on", "statement": "datasets::iris::load gives a 150 by 4 matrix and 150 targets, the first fifty rows being species 0, the next fifty species 1 and the last fifty species 2; datasets::trees::load gives a 31 by 2 matrix and 31 targets. No feature is an affine function of the others, so that with exact arithmetic LinRegressor trains on the trees data and, with any targets, LinRegressor and GenLinearModel (any of the four families) train on the iris data instead of failing on a singular matrix.", "quantifier": "All arithmetics for the shapes; all targets and previous model states for the training.", "why_tests_cant": "Tests check the shape; that no choice of targets can make training fail needs the rank of the table.", "anchors": ["src/datasets/iris.rs: load", "src/datasets/trees.rs: load", "src/learning/lin_reg.rs: LinRegressor::train", "src/learning/glm.rs: GenLinearModel::train"]}
{"id": "C156", "title": "What the classifiers can learn from the iris data", "statement": "On the iris data, in exact arithmetic: a KNNClassifier with one neighbour and brute force search answers all 150 training rows with their species. A LogisticRegressor trained with GradientDesc to tell Iris Setosa from the rest classifies all 150 rows correctly whenever the step size is between 1e-12 and 1/32 and step size times iterations exceeds 32100. No LogisticRegressor, however trained, classifies all rows of the other two species correctly.", "quantifier": "All step sizes, iteration counts and previous states that meet the inequalities; all parameter vectors.", "why_tests_cant": "The last part speaks about every parameter vector; a test can only try some.", "anchors": ["src/datasets/iris.rs: load", "src/learning/knn/mod.rs: KNNClassifier::train, KNNClassifier::predict", "src/learning/logistic_reg.rs: LogisticRegressor::train, LogisticRegressor::predict"]}
{"id": "C157", "title": "A best logistic fit exists exactly when the classes overlap, and training approaches it", "statement": "For targets 0 and 1 and features of which none is an affine function of the others: parameters of least mean cross-entropy exist exactly when no hyperplane weakly separates the two classes, and they are unique. On such data LogisticRegressor::train with GradientDesc (step size fitting the scale of the data) returns parameters whose distance to the best ones is bounded by a constant of the data over step size times iterations, unless the stopping rule for stalled costs ended it first, which bounds the distance as well. GenLinearModel with Bernoulli, when a pass of its training reproduces itself with means away from 0 and 1, has found the same parameters. The two iris species that cannot be separated have exactly one best fit.", "quantifier": "for all training sets with targets 0 and 1, all step sizes up to the bound, all iteration counts", "why_tests_cant": "Existence of a minimum over an unbounded parameter space, and convergence towards it, are not visible in any finite run.", "anchors": ["src/learning/logistic_reg.rs: LogisticRegressor::train", "src/learning/optim/grad_desc.rs: GradientDesc::optimize", "src/learning/glm.rs: GenLinearModel::train", "src/datasets/iris.rs: load"]}
{"id": "C158", "title": "Cross validation treats all samples alike and its scores pool to one list of held-out answers", "statement": "k_fold_validate draws its splits without looking at the data. For every position of a split, every way to cut the samples into training and test rows of the prescribed sizes, in every order, has the same probability 1/n!, so a split tests each sample with probability (size of its test set)/n. When validation succeeds with a score that is a mean over samples (accuracy, row_accuracy, neg_mean_squared_error), there is one list of answers, one per sample, each given by a model trained on a split that leaves the sample out, such that the scores weighted by the sizes of the test sets add up to the total value of these answers; with folds of equal size the plain mean of the scores is the mean over all samples.", "quantifier": "for all models, inputs, targets, numbers of folds and draws; all sample counts", "why_tests_cant": "A law of a random split is a statement about all draws together, and the pooling identity about all models; tests see single runs.", "anchors": ["src/analysis/cross_validation.rs: k_fold_validate, Folds, create_shuffled_indices", "src/analysis/score.rs: accuracy, row_accuracy, neg_mean_squared_error"]}
{"id": "C159", "title": "Naive Bayes training maximises a smoothed likelihood", "statement": "For training data in which every class occurs: the class priors and feature probabilities that NaiveBayes<Bernoulli> stores are the only ones that maximise the likelihood of rows and classes after each class is given one more row with every feature present and one with every feature absent; those of NaiveBayes<Multinomial> the only ones that do so after each class is given one more count of every word. The priors, means and variances of NaiveBayes<Gaussian> are the only ones that maximise the likelihood with one degree of freedom less per class and feature; the plain likelihood always has a better choice, with smaller variances.", "quantifier": "for all training sets (features in [0,1] for Bernoulli, non-negative for Multinomial, of positive variance for Gaussian) and all competing parameters", "why_tests_cant": "Optimality is a comparison with infinitely many other parameters.", "anchors": ["src/learning/naive_bayes.rs: NaiveBayes::train, Distribution::update_params, Gaussian, Bernoulli, Multinomial"]}
{"id": "C160", "title": "Costs are least exactly at the targets and bound the number of errors", "statement": "MeanSqError::cost is zero exactly when the outputs equal the targets and positive otherwise. CrossEntropyError::cost, for outputs strictly between 0 and 1 and targets between 0 and 1, is least exactly when the outputs equal the targets. When the targets are 0 and 1, the number of outputs on the wrong side of one half is at most rows times cost over ln 2 for the cross-entropy and at most 8 times rows times cost for the squared error; so the accuracy of a LogisticRegressor's rounded predictions on its training data is at least 1 minus its cost over ln 2.", "quantifier": "for all output and target matrices of the same shape; for all logistic parameters", "why_tests_cant": "The bounds compare the cost with the error count for every matrix of outputs.", "anchors": ["src/learning/toolkit/cost_fn.rs: MeanSqError::cost, CrossEntropyError::cost", "src/analysis/score.rs: accuracy", "src/learning/logistic_reg.rs: LogisticRegressor::predict"]}
{"id": "C161", "title": "How deep and how large search trees get", "statement": "Whatever the data, the recursive construction of a KDTree or BallTree over n rows that finishes has at most n - leafsize + 2 calls open at once (one when n < leafsize), needs at least log2(n / (leafsize - 1)) levels below the root, and builds fewer than 2n nodes, which also bounds the nodes a search visits. The depth is not logarithmic: for every n, on the points 1, 2, 4, 8, ... in exact arithmetic the recursion is exactly n - leafsize + 2 deep.", "quantifier": "for all data matrices (of any arithmetic, NaN included), leaf sizes and both kinds of tree; the lower bound for all n", "why_tests_cant": "Depth as a function of the number of rows is a statement about all sizes; a stack overflow shows only on large inputs.", "anchors": ["src/learning/knn/binary_tree.rs: BinaryTree::split, BinaryTree::select_split, BinaryTree::build"]}
{"id": "C162", "title": "Linear regression is the best linear unbiased estimate", "statement": "If the targets are an affine function of the features plus noise of mean zero, equal variance and no correlation, and no feature is an affine function of the others, then the parameters LinRegressor::train stores have the true parameters as their mean, and estimate every combination of them with the smallest mean squared error among all unbiased weightings of the targets; a weighting that does as well gives the same answers. The residuals on the training rows are orthogonal to every affine function of the features (so they sum to zero), and their sum of squares divided by rows minus parameters has the noise variance as its mean.", "quantifier": "for all feature matrices, true parameters, noise laws with finitely many outcomes and competing weightings; exact arithmetic", "why_tests_cant": "A mean over a noise law and a comparison with all other estimates cannot be read off single runs.", "anchors": ["src/learning/lin_reg.rs: LinRegressor::train, LinRegressor::predict"]}
{"id": "C163", "title": "Leave-one-out errors of linear regression follow from one training", "statement": "Let the leverage of a training row be the answer for it when LinRegressor is trained with target one at this row and zero elsewhere. It lies between 1/rows and 1, and the leverages add up to the number of parameters. Training on all rows but one succeeds exactly when the leverage of that row is below one, and the error of its prediction for the row left out is the ordinary residual divided by one minus the leverage.", "quantifier": "for all feature matrices of full rank, all targets, all rows; exact arithmetic and exact solver", "why_tests_cant": "The identity relates different trainings for every data set.", "anchors": ["src/learning/lin_reg.rs: LinRegressor::train, LinRegressor::predict"]}
{"id": "C164", "title": "Small changes of inputs or targets change answers little", "statement": "Two rows given to NeuralNet predict get answers no further apart than the rows times the product, over the layers, of the root of the sum of squared weights (without bias) and the activation's constant: 1/4 for Sigmoid, 1 for Tanh and Linear, none for Exp. For LinRegressor the factor is the length of the slope vector, for LogisticRegressor a quarter of it. Training LinRegressor with other targets moves its predictions for the training rows, taken together, no further than the targets moved. Moving the query point moves each of the k distances a nearest-neighbour search reports by at most the distance moved.", "quantifier": "for all networks of linear layers and activations, all weights, inputs, targets, data sets and k; exact arithmetic", "why_tests_cant": "Tests try a few pairs of inputs; the bound holds for all pairs.", "anchors": ["src/learning/nnet/mod.rs: NeuralNet::predict", "src/learning/nnet/net_layer.rs: Linear::forward", "src/learning/toolkit/activ_fn.rs: Sigmoid, Tanh, Linear, Exp", "src/learning/lin_reg.rs: LinRegressor::train, LinRegressor::predict", "src/learning/logistic_reg.rs: LogisticRegressor::predict", "src/learning/knn/brute_force.rs: BruteForce::search"]}
{"id": "C165", "title": "Depth adds nothing to a network without a non-linear activation", "statement": "A network whose layers are linear layers, with at most the Linear activation between them, predicts on every input exactly what a network of one linear layer with bias and suitable weights predicts.", "quantifier": "for all stacks of linear layers, all weights, all inputs; exact arithmetic", "why_tests_cant": "The equality is over all inputs and all weights.", "anchors": ["src/learning/nnet/mod.rs: NeuralNet::predict", "src/learning/nnet/net_layer.rs: Linear::forward", "src/learning/toolkit/activ_fn.rs: Linear"]}
{"id": "C166", "title": "What rows with missing values (NaN) do to neighbour search and DBSCAN", "statement": "Brute-force search for k neighbours treats a row with a NaN as absent if it is not among the first k rows. With k at least two it panics if the query or one of the first k rows has a NaN. With k = 1 it then answers row 0 with distance NaN; so a one-neighbour KNNClassifier whose first training row has a NaN gives every query the target of that row. A NaN as the first entry of the first row makes building a KDTree or BallTree run forever. DBSCAN (min_points at least 1) labels a row with a NaN as noise and all others as if it were absent; DBSCAN::predict answers noise for a query with a NaN, and for every query if the first training row has a NaN.", "quantifier": "for all data sets, positions of NaN, queries and k in binary64", "why_tests_cant": "Which answer a NaN leads to depends on the position of the row and on every comparison made; tests try few positions.", "anchors": ["src/learning/knn/brute_force.rs: BruteForce::search", "src/learning/knn/mod.rs: KNearest::new, KNearest::add, KNNClassifier", "src/learning/dbscan.rs: DBSCAN::train, DBSCAN::predict"]}
{"id": "C167", "title": "One missing value makes k-means put everything into one cluster, unless k-means++ notices", "statement": "If some training row has a NaN, KMeansClassifier::train from any starting centroids of the right shape (Forgy, RandomPartition or a user's initialiser) with at least one iteration returns Ok, and the model then predicts cluster 0 for every row of every input. With the default k-means++ initialiser and k at least two, train returns an InvalidData error instead and the model is unchanged.", "quantifier": "for all data sets, positions of NaN, starting centroids, k and iteration limits in binary64", "why_tests_cant": "The effect of NaN is followed through every iteration for every data set.", "anchors": ["src/learning/k_means.rs: KMeansClassifier::train, KMeansClassifier::predict, find_closest_centroids, update_centroids, KPlusPlus"]}
{"id": "C168", "title": "What missing values (NaN) do to naive Bayes", "statement": "NaiveBayes::train accepts training rows with NaN. A query row with a NaN is always given class 0. If a training row of class 0 has a NaN, every query is given class 0; if a training row of another class has one, no query is ever given that class. This holds for the Gaussian, Bernoulli and Multinomial distributions.", "quantifier": "for all training sets, classes, positions of NaN and queries in binary64", "why_tests_cant": "The answer depends on every score comparison; tests try few positions of NaN.", "anchors": ["src/learning/naive_bayes.rs: NaiveBayes::train, NaiveBayes::predict, get_classes, Gaussian, Bernoulli, Multinomial"]}
{"id": "C169", "title": "How neighbours change with k and with more data", "statement": "The distances that BruteForce::search reports for k neighbours are the first k of those it reports for more neighbours. Adding rows to the data, anywhere, never makes one of the reported distances larger, and reordering the rows changes none of them. A KNNClassifier whose k is the number of training rows gives every query the same label: the most frequent one (the smallest of those).", "quantifier": "for all data sets, added rows, orders, queries and k; exact arithmetic", "why_tests_cant": "The claims compare runs on different data sets and with different k; tests compare few of them.", "anchors": ["src/learning/knn/brute_force.rs: BruteForce::search", "src/learning/knn/mod.rs: KNearest, KNNClassifier"]}
{"id": "C170", "title": "Brute-force search does not notice a query of the wrong width", "statement": "BruteForce::search, and a KNNClassifier on top of it, give no error for a query whose number of columns is not that of the data: surplus columns of the query are ignored, and columns of the data that the query lacks are ignored too.", "quantifier": "for all data sets, queries of all widths and all k, in any arithmetic", "why_tests_cant": "Tests use queries of the right width.", "anchors": ["src/learning/knn/brute_force.rs: BruteForce::search", "src/learning/knn/mod.rs: dist, get_distances, KNNClassifier::predict"]}
{"id": "C171", "title": "Fitted logistic and generalized linear models balance the targets", "statement": "The parameters of a LogisticRegressor minimise the training cost exactly when, over the training rows, predict's answers have the same total as the targets and the same total weighted by each feature. For any parameters, the sum of the squared differences of these means is at most L/2 times the excess of the cost over its infimum, where L bounds 1 + the squared length of every row. Hence after train with GradientDesc (step size at most 4/L, classes with a best fit) the mean prediction differs from the share of positive targets by an amount that vanishes like one over the square root of the number of iterations, down to the optimizer's stopping tolerance. A pass of GenLinearModel with Normal or Poisson that reproduces itself balances the targets as well.", "quantifier": "for all data sets, parameters, step sizes and iteration counts; exact arithmetic", "why_tests_cant": "The equivalence and the rate range over all data sets and all parameters.", "anchors": ["src/learning/logistic_reg.rs: LogisticRegressor::train, LogisticRegressor::predict", "src/learning/optim/grad_desc.rs: GradientDesc", "src/learning/glm.rs: GenLinearModel::train, GenLinearModel::predict"]}
{"id": "C172", "title": "With one cluster or one component the models reduce to averages", "statement": "K-means with k = 1 returns Ok for every matrix with at least one row and stores exactly the column means as its only centroid, whatever the initial centroid, the tolerance and the positive iteration limit, in every arithmetic (floating point and NaN included); predict then answers 0 for every row. In exact arithmetic a Gaussian mixture with one component that trains successfully holds weight 1, the column means and the covariance of the data divided by the number of rows (only the diagonal for Diagonal, plus eps / n on the diagonal for Regularized), whatever row was drawn and however many rounds were made, unless the loop ended before its first update (no iterations allowed, or the likelihood of the start within 1e-15 of the stored one), in which case it holds the start; predict answers 1 for every row.", "quantifier": "for all data, initial centroids, options, draws and numbers of rounds", "why_tests_cant": "the draws, the data and the number of rounds are unbounded", "anchors": ["src/learning/k_means.rs:KMeansClassifier::train", "src/learning/k_means.rs:update_centroids", "src/learning/gmm.rs:GaussianMixtureModel::train", "src/learning/gmm.rs:update_params"]}
{"id": "C173", "title": "One missing value makes gradient-descent regression answer NaN for everything, without an error", "statement": "LinRegressor::train_with_optimization and LogisticRegressor::train with GradientDesc accept training data with a NaN in any row or target. They return Ok, and every parameter they store is NaN, so that predict then answers NaN for every row of every query.", "quantifier": "for all training sets, positions of NaN, step sizes, positive iteration counts and queries, in binary64 and for all functions exp and ln that pass NaN on", "why_tests_cant": "Tests do not put NaN into the data, and there are unboundedly many positions and runs.", "anchors": ["src/learning/lin_reg.rs: LinRegressor::train_with_optimization, LinRegressor::predict", "src/learning/logistic_reg.rs: LogisticRegressor::train, LogisticRegressor::predict", "src/learning/optim/grad_desc.rs: GradientDesc::optimize"]}
{"id": "C174", "title": "Gradient descent on least squares works direction by direction", "statement": "Let v be an eigenvector of Z'Z/n with eigenvalue lambda, Z being the rows with a leading one. GradientDesc with step size alpha on LinRegressor's cost multiplies the distance from every least-squares fit, measured along v, by 1 - alpha lambda in each step. Hence train_with_optimization has covered exactly the share 1 - (1 - 0.3 lambda)^j of the way to the least-squares fit after the j <= 100 steps it makes; directions with lambda above 20/3 move away from it. The loop ends before the limit only when a step changes the cost by less than 1e-20 or the start has a cost below 1e-20.", "quantifier": "for all data sets with at least one row, step sizes, starts, iteration limits and eigenvectors; exact arithmetic", "why_tests_cant": "The claim is an identity for every data set, every direction and every number of steps.", "anchors": ["src/learning/lin_reg.rs: LinRegressor::train_with_optimization, LinRegressor::compute_grad", "src/learning/optim/grad_desc.rs: GradientDesc::optimize"]}
{"id": "C175", "title": "One missing value makes a support vector machine answer NaN", "statement": "If some training row contains NaN, SVM::train still returns Ok, but no draw ever changes a coefficient: all of them are 0 / optim_iters afterwards. With NaN in a row or among the targets, predict then answers NaN for every query. This holds for every kernel whose value is NaN when one argument contains NaN; the linear, polynomial, squared exponential, exponential, hyperbolic tangent, multiquadric and rational quadratic kernels are such kernels provided exp, tanh and powf return NaN for NaN (powf with a non-zero exponent).", "quantifier": "for all data sets, targets, kernels of this kind, sequences of draws and queries; binary64 arithmetic", "why_tests_cant": "One data set with one NaN does not show that no position of the NaN, no sequence of draws and no kernel gives another answer.", "anchors": ["src/learning/svm.rs: SVM::train, SVM::predict", "src/learning/toolkit/kernel.rs: Kernel::kernel"]}
{"id": "C176", "title": "NaN in, NaN out", "statement": "A query row containing NaN gets the answer NaN, never a number: from linear, logistic and generalised linear regression (Identity, Logit and Log links), Gaussian processes and support vector machines with a kernel that passes NaN on, principal component analysis (every coordinate) and networks built by mlp with Sigmoid, Linear, Exp or Tanh activations (every output). The other rows of the same query batch are not covered by this claim.", "quantifier": "for all trained models, query matrices and rows with NaN; binary64 arithmetic, exp and tanh return NaN for NaN", "why_tests_cant": "A test sees some NaN positions in some models; the claim is for all parameter values, including zero and infinite weights.", "anchors": ["src/learning/lin_reg.rs: LinRegressor::predict", "src/learning/logistic_reg.rs: LogisticRegressor::predict", "src/learning/glm.rs: GenLinearModel::predict", "src/learning/gp.rs: GaussianProcess::predict", "src/learning/svm.rs: SVM::predict", "src/learning/pca.rs: PCA::predict", "src/learning/nnet/mod.rs: NeuralNet::predict"]}
{"id": "C177", "title": "The densities integrate to one, with the mean and variance of the parameters", "statement": "Exponential: the integral of pdf from 0 to x is cdf(x); over [0, infinity) pdf has mass 1, mean 1/lambda and variance 1/lambda^2; 1 - cdf is memoryless. Gaussian: over the whole line pdf has mass 1, mean `mean` and variance `variance`; the mass below x exists, and Gaussian::cdf(x) is within 0.0035 of it.", "quantifier": "for all lambda > 0, means, variances > 0 and x; exact arithmetic", "why_tests_cant": "Improper integrals for a continuum of parameters; tests evaluate pdf and cdf at a few points.", "anchors": ["src/stats/dist/exponential.rs: Exponential::pdf, Exponential::cdf", "src/stats/dist/gaussian.rs: Gaussian::pdf, Gaussian::cdf"]}
{"id": "C178", "title": "The k-means initialisers give every choice the same chance", "statement": "Forgy: for n rows and k <= n, every ordered choice of k different rows has the same chance, whatever the number of draws; as the number of draws grows the chance tends to 1/(n (n-1) ... (n-k+1)). Random partition: rows 0..k-1 go to classes 0..k-1; every assignment of the remaining rows to the k classes has chance (1/k)^(n-k).", "quantifier": "for all n, k <= n, choices of rows and assignments; draws of gen_range uniform and independent", "why_tests_cant": "A distribution cannot be settled by finitely many seeded runs.", "anchors": ["src/learning/k_means.rs: Forgy::init_centroids, RandomPartition::init_centroids"]}
{"id": "C179", "title": "Answers between two queries lie between their answers", "statement": "In exact arithmetic, take two query rows and any row on the straight line between them. Linear regression, and a Gaussian process with the linear kernel and a constant mean, answer with the corresponding weighted average of the two answers. Logistic regression and generalised linear models with the Identity, Logit and Log links answer something between the two answers. If a linear-kernel SVM puts both rows on the same side, it puts the row between them there too. If k-means puts both in one cluster, the row between them is in it. If a Bernoulli or multinomial naive Bayes classifier, or a Gaussian one whose classes have the same variances, gives both the same class, it gives the row between them that class. A Gaussian classifier trained on classes of different variance can give the half-way row another class.", "quantifier": "all models (trained or given), all pairs of query rows of equal width, all points between them", "why_tests_cant": "The claim is about a continuum of queries: no finite set of queries shows that a region has no holes.", "anchors": ["src/learning/lin_reg.rs: LinRegressor::predict", "src/learning/logistic_reg.rs: LogisticRegressor::predict", "src/learning/glm.rs: GenLinearModel::predict", "src/learning/gp.rs: GaussianProcess::predict", "src/learning/svm.rs: SVM::predict", "src/learning/k_means.rs: KMeansClassifier::predict", "src/learning/naive_bayes.rs: NaiveBayes::predict"]}
{"id": "C180", "title": "Giving every sample several times does not change what is learnt", "statement": "In exact arithmetic, let a data set hold every sample of another k times, in any order. LinRegressor::train_with_optimization and LogisticRegressor::train (with any optimiser that sees the data through cost and gradient) end with exactly the same model. k-means from the same initial centroids ends with the same centroids when its stop tolerance is multiplied by k: the test compares sums over the rows, so the constant tolerance of the code is k times as strict on the repeated data. MinMaxScaler fits the same scaler (or the same error) whatever the entries. accuracy, precision, recall, f1 and neg_mean_squared_error are unchanged. Standardizer is the exception: means stay, but every variance shrinks by the factor k(n-1)/(kn-1), because variances divide by the number of rows minus one.", "quantifier": "all data sets, all k >= 1, all orders of the repeated samples, all optimisers, all initial centroids", "why_tests_cant": "An equality of whole training runs for every data set and every repetition count; rounding hides it from numerical tests.", "anchors": ["src/learning/lin_reg.rs: LinRegressor::train_with_optimization", "src/learning/logistic_reg.rs: LogisticRegressor::train", "src/learning/k_means.rs: KMeansClassifier::train", "src/data/transforms/minmax.rs: MinMaxFitter::fit", "src/data/transforms/standardize.rs: StandardizerFitter::fit", "src/analysis/score.rs: accuracy, precision, recall, f1, neg_mean_squared_error"]}
{"id": "C181", "title": "The signs of the hidden units of a network do not matter", "statement": "In exact arithmetic, for a network of linear layers and activations: pick any units that are followed by an activation with f(-x) = -f(x) (Tanh and Linear; not Sigmoid or Exp) or by none, and change the signs of their biases and of every weight that joins a picked unit to one that is not picked. If only hidden units are picked, predict answers exactly the same; picked inputs and outputs change the signs of these columns. Training the changed network, with any optimiser of the crate, for the same random draws, mean squared error (or cross entropy after a final Sigmoid) and L2 or no regularisation, ends with exactly the changed weights.", "quantifier": "all stacks of linear and smooth activation layers, all weights, inputs, targets, choices of units, all five optimisers", "why_tests_cant": "A symmetry of whole training runs over all architectures and weights; rounding and random starts hide it from tests.", "anchors": ["src/learning/nnet/mod.rs: NeuralNet::predict, NeuralNet::train, BaseNeuralNet::compute_grad", "src/learning/nnet/net_layer.rs: Linear::forward", "src/learning/toolkit/activ_fn.rs: Tanh, Linear"]}
{"id": "C182", "title": "A hidden unit that starts dead stays dead", "statement": "In exact arithmetic, with L2 or no regularisation: if all weights into and out of some hidden units with an odd activation (Tanh, Linear) and their biases are zero, they are still zero after any successful training with any optimiser of the crate. So a network whose first two linear layers start at zero answers the same for every input after any training; only the constant answer is learnt.", "quantifier": "all networks of linear and smooth activation layers, all training data, all five optimisers and their parameters, all random draws", "why_tests_cant": "The claim is about the end of every training run; a test that starts at zero sees one run and not that no run can ever leave.", "anchors": ["src/learning/nnet/mod.rs: NeuralNet::train, BaseNeuralNet::compute_grad", "src/learning/toolkit/activ_fn.rs: Tanh, Linear", "src/learning/optim/grad_desc.rs: GradientDesc, StochasticGD, AdaGrad, RMSProp", "src/learning/optim/fmincg.rs: ConjugateGD"]}
{"id": "C183", "title": "Random starting weights keep the size of signals", "statement": "The starting weights of a linear layer are a standard deviation times independent standard normal draws. They have mean 0, variance 2/(input_size + output_size) as the documentation of default_params says (input_size includes the bias row), and are uncorrelated. Hence, before training and in exact arithmetic, the answers of a fresh linear layer have mean 0, different outputs are uncorrelated, and the mean product of one output at two rows is 2/(input_size + output_size) times the inner product of the rows (plus 1 with a bias); gradients passed back through the layer likewise. The mean squared length of a row of answers is 2 o/(input_size + o) times that of the row, that of a gradient passed back 2 i/(input_size + o) times that of the gradient.", "quantifier": "all layer sizes, with and without bias, all input rows and gradients; draws that are uncorrelated with mean 0 and variance 1", "why_tests_cant": "A statement about means over all random starts; tests run a few starts.", "anchors": ["src/learning/nnet/net_layer.rs: Linear::default_params, Linear::forward, Linear::back_input", "src/learning/nnet/mod.rs: BaseNeuralNet::add"]}
{"id": "C184", "title": "One feature, and one feature more, in linear regression", "statement": "With one feature, training succeeds exactly when two of its values differ; the slope stored is the sum of products of deviations over the sum of squared deviations, the intercept makes the line pass through the averages, and the remaining sum of squares is Syy - Sxy^2 / Sxx. With an additional feature column c training succeeds exactly when it did without it and c is not an affine function of the other features; the new coefficient and the change of all others depend only on the part e of c that regression on the other features leaves unexplained (coefficient sum e y / sum e^2, the others change by that times the coefficients of c on them), the sum of squared training errors drops by (sum e y)^2 / sum e^2, so it never rises and stays only if the new coefficient is zero. A feature uncorrelated with the others leaves their coefficients alone.", "quantifier": "all data, in exact arithmetic with an exact solver", "why_tests_cant": "all data sets; compares two trainings", "anchors": ["src/learning/lin_reg.rs:LinRegressor::train", "src/learning/lin_reg.rs:LinRegressor::predict"]}
{"id": "C185", "title": "What DBSCAN does with more rows", "statement": "Appending rows to the training data leaves every labelled row labelled and rows of one cluster in one cluster; clusters can only merge. Appended rows that are all at least eps away from the old ones leave the old labels as they are and get, with the labels that follow, the clusters they have on their own. Every row k times over, with min_points multiplied by k, gives every copy the label of its original. With min_points 1 no row is noise, and two rows share a cluster exactly when steps shorter than eps between rows lead from one to the other.", "quantifier": "all data sets, eps and min_points (the first two in binary64 with any entries, the others in exact arithmetic with eps > 0)", "why_tests_cant": "all data sets; relates several trainings", "anchors": ["src/learning/dbscan.rs:DBSCAN::train", "src/learning/dbscan.rs:expand_cluster", "src/learning/dbscan.rs:region_query"]}
{"id": "C186", "title": "Repeating every sample q times with q times the noise gives the same Gaussian process", "statement": "Training a GaussianProcess on every sample q times (q > 0) with noise q times as large gives the same predictions and the same posterior mean and covariance as training on the samples once; in particular repeated rows are handled like one row with a smaller noise. (Exact factorisation and solvers, mean function working row by row; both trainings succeed, which C144 guarantees for positive noise.)", "quantifier": "All data sets and targets, all q, all kernels, all noise levels, all query matrices.", "why_tests_cant": "The two systems have different sizes; that their solutions give the same function is an identity over all kernels and data.", "anchors": ["src/learning/gp.rs: SupModel::train and predict for GaussianProcess (lines 147-176)", "src/learning/gp.rs: GaussianProcess::get_posterior (lines 179-210)"]}
{"id": "C187", "title": "The gradient of a network is the sum of its samples' gradients, the cost their mean", "statement": "For an unregularised network with squared error, or cross entropy after a final sigmoid, compute_grad on a batch returns the mean of the costs of its samples and the sum of the gradients compute_grad returns for the samples one by one. Hence the order of the samples does not matter, and giving every sample k times makes the gradient k times as long: GradientDesc then learns the same weights when the learning rate is divided by k (unlike the regressions, C180, where nothing has to be changed).", "quantifier": "All layer stacks with smooth activations, all weights, all data sets, all k, all orders of the rows, all learning rates and iteration counts.", "why_tests_cant": "The identity involves back-propagation through arbitrary stacks; tests check a few gradients of fixed networks.", "anchors": ["src/learning/nnet/mod.rs: BaseNeuralNet::compute_grad (lines 327-437)", "src/learning/toolkit/cost_fn.rs: MeanSqError, CrossEntropyError (lines 28-94)", "src/learning/optim/grad_desc.rs: GradientDesc::optimize (lines 67-97)"]}
{"id": "C188", "title": "Scores and confusion matrices of joined, relabelled and restricted data", "statement": "For the same labels the confusion matrix of two batches together is the sum of their matrices, and the accuracy is the mean of their accuracies weighted by their sizes. A count depends on its two labels only, not on which other labels are listed or in which order. Renaming the labels one-to-one changes no accuracy, precision, recall or F1 in any arithmetic, nor the confusion matrix for the renamed label list (nor the one without a label list, if the order of the labels is kept).", "quantifier": "All label types, predictions, targets, label lists, renamings.", "why_tests_cant": "Relations between several calls on arbitrary data; tests look at single calls.", "anchors": ["src/analysis/confusion_matrix.rs: confusion_matrix (lines 44-85)", "src/analysis/score.rs: accuracy, precision, recall, f1 (lines 34-198)"]}
{"id": "C189", "title": "Means of reservoir samples are unbiased, with the variance of sampling without replacement", "statement": "For every quantity f, the mean of f over reservoir_sample(pool, k) has the mean of f over the pool as its expected value, whether or not the pool has repeated elements, and its variance is sigma^2/k * (n-k)/(n-1), with sigma^2 the variance of f over the n elements of the pool: that of a simple random sample without replacement.", "quantifier": "All pools, all sample sizes 0 < k <= n, all real functions of the elements.", "why_tests_cant": "Expectations over all random draws; a test sees a few draws.", "anchors": ["src/learning/toolkit/rand_utils.rs: reservoir_sample (lines 16-41)"]}
{"id": "C190", "title": "Exchanging the two classes exchanges the answers", "statement": "Which of two classes is called 1 is a convention: training logistic regression or a Bernoulli generalised linear model on the targets 1 - t instead of t gives a model whose probabilities are 1 - p instead of p. Negating the targets of a support vector machine negates its answers.", "quantifier": "all data sets with targets 0 and 1, all queries (exact arithmetic)", "why_tests_cant": "all real data sets and queries", "anchors": ["src/learning/logistic_reg.rs:LogisticRegressor::train", "src/learning/logistic_reg.rs:LogisticRegressor::predict", "src/learning/glm.rs:GenLinearModel::train", "src/learning/glm.rs:Bernoulli", "src/learning/svm.rs:SVM::train"]}
{"id": "C191", "title": "Logistic regression treats the two classes alike except for where it starts", "statement": "On exchanged targets the cross-entropy of the negated parameters is the cross-entropy of the parameters on the original targets, so best fits are negated; gradient descent and conjugate gradients from negated starts return negated parameters; and negated parameters predict 1 - p for every query.", "quantifier": "all data sets, targets, parameters, starts, optimiser settings and queries (exact arithmetic)", "why_tests_cant": "all real data sets, starts and numbers of iterations", "anchors": ["src/learning/logistic_reg.rs:BaseLogisticRegressor::compute_grad", "src/learning/logistic_reg.rs:LogisticRegressor::predict", "src/learning/optim/grad_desc.rs:GradientDesc::optimize", "src/learning/optim/fmincg.rs:ConjugateGD::optimize"]}
{"id": "C192", "title": "What models make of a constant target", "statement": "If all training targets are equal, linear regression and the normal generalised linear model answer that value wherever the data determine the answer; a nearest-neighbour classifier answers that label for every query, with any search structure that returns training rows; a support vector machine with a positive kernel answers that class for every query and all draws. A Poisson model trained on a constant count c answers exp(c), which is never c.", "quantifier": "all data sets, constants, queries, solvers, search structures, kernels and draws (exact arithmetic)", "why_tests_cant": "all real data sets, queries and random draws", "anchors": ["src/learning/lin_reg.rs:LinRegressor::train", "src/learning/glm.rs:GenLinearModel::train", "src/learning/glm.rs:Poisson", "src/learning/knn/mod.rs:KNNClassifier::predict", "src/learning/svm.rs:SVM::train"]}
{"id": "C193", "title": "Data that agree with the model's answers change nothing", "statement": "Take a trained model, let it answer for further rows, and add these rows with these answers as targets. LinRegressor::train then stores the same parameters as without them, and conversely, if the first rows determine the answer, parameters learnt with such rows are those learnt without. Parameters are a best logistic fit with such rows exactly when they are one without. A GenLinearModel with the Normal family trained again predicts the same for every query the old rows determine. A GaussianProcess trained again with the same noise predicts the same for every query. A KMeansClassifier that has settled (every centroid has rows, one more iteration changes nothing) keeps its centroids when trained from them with further rows that lie at centroids.", "quantifier": "for all data, targets, further rows and queries of the same width; for linear regression all exact solvers; for the generalised linear model all sound inverses; for Gaussian processes all kernels, row-wise mean functions and sound decompositions", "why_tests_cant": "An equality of two trainings for every data set and every set of added rows; tests compare a few trainings up to rounding.", "anchors": ["src/learning/lin_reg.rs: LinRegressor::train, predict", "src/learning/logistic_reg.rs: LogisticRegressor::predict, BaseLogisticRegressor::compute_grad", "src/learning/glm.rs: GenLinearModel::train, predict", "src/learning/gp.rs: GaussianProcess::train, predict", "src/learning/k_means.rs: KMeansClassifier::train, predict"]}
{"id": "C194", "title": "Far from the data a Gaussian process answers with its prior", "statement": "If the kernel fades with the distance, as SquaredExp, Exponential and RationalQuadratic do (Linear does not), then for every tolerance there is a distance such that for all queries further than that from every training row GaussianProcess::predict is within the tolerance of the mean function, and get_posterior gives covariances within the tolerance of the kernel's.", "quantifier": "for all training data, noise, row-wise mean functions, fading kernels, tolerances and query matrices", "why_tests_cant": "A limit over all queries of unbounded size; any finite set of queries leaves the rest open.", "anchors": ["src/learning/gp.rs: GaussianProcess::train, predict, get_posterior", "src/learning/toolkit/kernel.rs: SquaredExp::kernel"]}
{"id": "C195", "title": "Updating a naive Bayes distribution changes the row of one class and nothing else", "statement": "Distribution::update_params(data, class), which is public, replaces the parameters of its class by numbers that depend only on the data (not on earlier updates or on the class), leaves the parameters of all other classes as they were, and panics without a change if the distribution has no such class. Gaussian first refuses data with fewer than two rows with InvalidData and without a change.", "quantifier": "for all data with at least one feature, all earlier parameters of that width and all classes, in every arithmetic", "why_tests_cant": "Quantifies over all earlier states of the distribution, including those only reachable by calling the trait directly.", "anchors": ["src/learning/naive_bayes.rs: Distribution::update_params, Gaussian, Bernoulli, Multinomial"]}
{"id": "C196", "title": "Linear models cannot answer exclusive-or, neighbour classifiers and networks with a hidden layer can", "statement": "Take two segments that cross, such as the diagonals of a square. Whatever it was trained on, no LinRegressor, LogisticRegressor, GenLinearModel with a built-in link, or GaussianProcess with the Linear kernel and a constant mean answers above a threshold on both ends of the first and not above it on both ends of the second; no SVM with the Linear kernel, no KMeansClassifier and no Bernoulli or Multinomial NaiveBayes gives the ends of the first one class and the ends of the second another. Neither does a NeuralNet without a hidden layer. A KNNClassifier with k = 1 trained on the corners of the unit square answers exclusive-or. There are weights with which the default network of sizes 2, 2, 1 answers it, too.", "quantifier": "for all model states, crossing segments, thresholds and classes, exact arithmetic", "why_tests_cant": "An impossibility over all trainings and parameters; no number of failed trainings shows it.", "anchors": ["src/learning/lin_reg.rs: LinRegressor::predict", "src/learning/logistic_reg.rs: LogisticRegressor::predict", "src/learning/glm.rs: GenLinearModel::predict", "src/learning/gp.rs: GaussianProcess::predict", "src/learning/svm.rs: SVM::predict", "src/learning/k_means.rs: KMeansClassifier::predict", "src/learning/naive_bayes.rs: NaiveBayes::predict", "src/learning/knn/mod.rs: KNNClassifier::train, predict", "src/learning/nnet/mod.rs: NeuralNet::predict, default"]}
{"id": "C197", "title": "Models that answer alike score alike, and mixing answers never costs squared error", "statement": "The accuracies of two classifiers on the same targets differ by at most the share of samples on which their answers differ, and add up to at most one plus the share on which they agree. The error rate of a majority vote of three classifiers is at most half the sum of their error rates. The root mean squared errors of two regression models (the root of minus neg_mean_squared_error) differ by at most the root mean squared difference of their answers. If every answer of a third is w times that of the first plus 1 - w times that of the second, its neg_mean_squared_error is the same mixture of theirs plus w (1 - w) times the mean squared difference of their answers.", "quantifier": "for all lists of answers and targets of equal length, all label types with decidable equality, all matrices of equal shape and all weights, exact arithmetic", "why_tests_cant": "Inequalities and an identity over all pairs of models and all targets; tests fix the answers.", "anchors": ["src/analysis/score.rs: accuracy, neg_mean_squared_error"]}
{"id": "C198", "title": "DBSCAN at the ends of its parameter ranges", "statement": "If all training rows are closer to each other than eps and there are at least min_points of them, DBSCAN::train puts all rows into cluster 0. With fewer rows than min_points, or with an eps that is not positive (and min_points at least 1), it labels every row as noise. If no two rows are closer than eps and min_points is at most 1, row i becomes cluster i.", "quantifier": "for all data, all states of the model before training and all parameters that meet the conditions, exact arithmetic", "why_tests_cant": "Statements about all data sets of any size and any parameter values beyond a threshold.", "anchors": ["src/learning/dbscan.rs: DBSCAN::train, clusters"]}
