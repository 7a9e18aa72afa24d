(** * Models as objects: what a [train] call may do to the state

    For every model of the crate, [..._trains m d m' r] says that calling [train] on state [m] with
    data [d] may leave state [m'] and return [r] (a panic is [r = Panic]).  The functions are those
    of the [Model_*.v] files; answers of randomised parts and of numerical routines are any answers. *)
From Coq Require Import List Arith Bool.
From Verif Require Import Base Num NumFn Linalg Model_KNN Model_KMeans Model_DBSCAN Model_NaiveBayes Model_Optim
  Model_Regression Model_GLM Model_Kernel Model_GP Model_SVM Model_PCA Model_GMM Model_NNet Model_CrossVal.
Import ListNotations.

Section Trains.
  Context {F : Type} {N : Num F} {NF : NumFn F}.

  (** src/learning/knn/brute_force.rs lines 47-50. *)
  Definition brute_builder (_ : option (matrix F)) (data : matrix F) : res (option (matrix F)) := Ok (Some data).

  (** src/learning/knn/binary_tree.rs lines 389-395: the searcher is [leafsize] and the built tree.
      A build that does not finish within [fuel] rounds is [Panic] here: it never returns. *)
  Definition tree_builder {G} (B : @BinarySplit F G) (fuel : nat) (s : nat * option (@node F G * matrix F)) (data : matrix F)
      : res (nat * option (@node F G * matrix F)) :=
    match tree_build B fuel (fst s) data with
    | Some (Ok root) => Ok (fst s, Some (root, data))
    | Some (Err k) => Err k
    | _ => Panic
    end.

  (** src/learning/knn/mod.rs lines 125-137. *)
  Definition knn_trains {S} (s_build : S -> matrix F -> res S) (m : KNNClassifier S) (d : matrix F * list nat) m' r : Prop :=
    knn_train s_build m (fst d) (snd d) = (m', r).
  (** src/learning/k_means.rs lines 92-110; [init] says which answers the initialiser may give. *)
  Definition km_trains (tol : F) (init : nat -> matrix F -> res (matrix F) -> Prop) (m : KMeans F) (d : matrix F) m' r : Prop :=
    exists a, init (km_k m) d a /\ km_train tol a m d = (m', r).
  (** src/learning/dbscan.rs lines 80-104. *)
  Definition db_trains (m : DBSCAN F) (d : matrix F) m' (r : res unit) : Prop :=
    r = Ok tt /\ exists fuel, dbscan_train fuel m d = Some m'.
  (** src/learning/naive_bayes.rs lines 109-112. *)
  Definition nb_trains {P} (D : Distribution P) (m : NaiveBayes F P) (d : matrix F * matrix F) m' r : Prop :=
    nb_train D m (fst d) (snd d) = (m', r).
  (** src/learning/lin_reg.rs lines 85-92 and 151-160. *)
  Definition lr_trains solve (m : LinRegressor F) (d : matrix F * list F) m' r : Prop :=
    lr_train solve m (fst d) (snd d) = (m', r) \/ lr_train_with_optimization m (fst d) (snd d) = (m', r).
  (** src/learning/logistic_reg.rs lines 116-125. *)
  Definition log_trains optimize (m : LogisticRegressor F) (d : matrix F * list F) m' r : Prop :=
    log_train optimize m (fst d) (snd d) = (m', r).
  (** src/learning/glm.rs lines 93-139. *)
  Definition glm_trains inverse cr (m : GenLinearModel F) (d : matrix F * list F) m' r : Prop :=
    glm_train inverse cr m (fst d) (snd d) = (m', r).
  (** src/learning/gp.rs lines 157-175. *)
  Definition gp_trains ker mean cholesky solve_l solve_u (m : GaussianProcess F) (d : matrix F * list F) m' r : Prop :=
    gp_train ker mean cholesky solve_l solve_u m (fst d) (snd d) = (m', r).
  (** src/learning/svm.rs lines 144-171. *)
  Definition svm_trains ker (m : SVM F) (d : matrix F * list F) m' (r : res unit) : Prop :=
    r = Ok tt /\ outcome (svm_train ker m (fst d) (snd d)) (Some m').
  (** src/learning/pca.rs lines 160-196. *)
  Definition pca_trains svd (m : PCA F) (d : matrix F) m' r : Prop := pca_train svd m d = (m', r).
  (** src/learning/gmm.rs lines 72-107. *)
  Definition gmm_trains lup (m : GMM F) (d : matrix F) m' r : Prop := outcome (gmm_train lup m d) (Some (m', r)).
  (** src/learning/nnet/mod.rs lines 89-93. *)
  Definition net_trains optimize (m : BaseNeuralNet F) (d : matrix F * matrix F) m' (r : res unit) : Prop :=
    r = Ok tt /\ outcome (net_train optimize m (fst d) (snd d)) (Some m').

  (** src/learning/nnet/mod.rs lines 89-93: a network with an optimiser that draws nothing, as [k_fold_validate] sees it: rows of [w]
      inputs and [v] targets. *)
  Definition net_fold_train (w v : nat) optimize (m : BaseNeuralNet F) (xs ys : list (list F)) : res unit * BaseNeuralNet F :=
    match net_train optimize m (Mat xs w) (Mat ys v) with
    | RRet m' => (Ok tt, m')
    | _ => (Panic, m)
    end.
  (** The same for [predict]; src/learning/nnet/mod.rs lines 84-86. *)
  Definition net_fold_predict (w : nat) (m : BaseNeuralNet F) (xs : list (list F)) : res (list (list F)) :=
    let? out := net_predict m (Mat xs w) in Ok (mrows out).
  (** src/learning/knn/mod.rs lines 125-137: the classifier of k nearest rows as [k_fold_validate] sees it: rows of [w] entries. *)
  Definition knn_fold_train {S} (s_build : S -> matrix F -> res S) (w : nat) (m : KNNClassifier S) (xs : list (list F)) (ys : list nat)
      : res unit * KNNClassifier S :=
    let (m', r) := knn_train s_build m (Mat xs w) ys in (r, m').
  (** The same for [predict]; src/learning/knn/mod.rs lines 106-123. *)
  Definition knn_fold_predict {S} (s_search : S -> list F -> nat -> res (list nat * list F)) (w : nat) (m : KNNClassifier S) (xs : list (list F))
      : res (list nat) := knn_predict s_search m (Mat xs w).
End Trains.
