(** * C118: the kernel models see the inputs through the kernel only *)
From Coq Require Import List Arith Reals Permutation.
From Verif Require Import Base Num NumFn Linalg Model_Kernel Model_SVM Model_GP Spec_KNN Spec_DBSCAN2 Spec_KerInv Proof_Similar Proof_KerInv.
Import ListNotations.
Local Open Scope R_scope.

(** C118: whatever the arithmetic and the kernel, rewriting all inputs by a map that keeps the kernel values changes nothing: the SVM makes
    the same predictions for the same random draws. *)
Theorem C118_svm : forall F (N : Num F) (ker : Kernel F) self X y Z n' T, mcols Z = mcols X ->
  (forall a b, In a (mrows Z ++ mrows X) -> In b (mrows X) -> ker (nonev :: T a) (nonev :: T b) = ker (nonev :: a) (nonev :: b)) ->
  (let! m := svm_train ker self (map_rows n' T X) y in RRet (svm_predict ker m (map_rows n' T Z))) = (let! m := svm_train ker self X y in RRet (svm_predict ker m Z)).
Proof. exact @svm_invariant. Qed.
Print Assumptions C118_svm.

(** C118: the same for Gaussian processes, their posterior and their errors. *)
Theorem C118_gp : forall F (N : Num F) (ker : Kernel F) mean cholesky solve_l solve_u self X y Z n' T, mcols Z = mcols X ->
  (forall a b, In a (mrows Z ++ mrows X) -> In b (mrows Z ++ mrows X) -> ker (T a) (T b) = ker a b) ->
  mean (map_rows n' T X) = mean X -> mean (map_rows n' T Z) = mean Z ->
  exists m m' r, gp_train ker mean cholesky solve_l solve_u self X y = (m, r) /\ gp_train ker mean cholesky solve_l solve_u self (map_rows n' T X) y = (m', r) /\
    (r = Ok tt -> gp_predict ker mean m' (map_rows n' T Z) = gp_predict ker mean m Z /\
                  gp_get_posterior ker mean solve_l m' (map_rows n' T Z) = gp_get_posterior ker mean solve_l m Z).
Proof. exact @gp_invariant. Qed.
Print Assumptions C118_gp.

(** C118: every kernel of the library is kept by rotations, reflections and other orders of the features ... *)
Theorem C118_rigid : forall K n n' T a b, library_kernel K -> rigid n n' T -> length a = n -> length b = n ->
  K (T a) (T b) = K a b /\ K (1 :: T a) (1 :: T b) = K (1 :: a) (1 :: b).
Proof. exact rigid_kernels. Qed.
Print Assumptions C118_rigid.
Theorem C118_column_order : forall n p, Permutation p (seq 0 n) -> rigid n n (reordered p).
Proof. exact reordered_rigid. Qed.
Print Assumptions C118_column_order.
(** ... and the kernels of the distance by all isometries, in particular moves. *)
Theorem C118_isometric : forall K n n' (T : list R -> list R) a b, distance_kernel K -> length a = n -> length b = n -> length (T a) = n' -> length (T b) = n' ->
  euclid n' (T a) (T b) = euclid n a b -> K (T a) (T b) = K a b /\ K (1 :: T a) (1 :: T b) = K (1 :: a) (1 :: b).
Proof. exact isometric_kernels. Qed.
Print Assumptions C118_isometric.
Theorem C118_moves : forall n t pts, length t = n -> (forall a, In a pts -> length a = n) -> similarity n n 1 (moved t) pts.
Proof. exact move_similar. Qed.
Print Assumptions C118_moves.

(** C118: hence for the models of the library. *)
Theorem C118_svm_rigid : forall K self X y Z n' T, library_kernel K -> mwf X -> mwf Z -> mcols Z = mcols X -> rigid (mcols X) n' T ->
  (let! m := svm_train K self (map_rows n' T X) y in RRet (svm_predict K m (map_rows n' T Z))) = (let! m := svm_train K self X y in RRet (svm_predict K m Z)).
Proof. exact svm_rigid. Qed.
Print Assumptions C118_svm_rigid.
Theorem C118_svm_isometric : forall K self X y Z n' T, distance_kernel K -> mwf X -> mwf Z -> mcols Z = mcols X ->
  similarity (mcols X) n' 1 T (mrows Z ++ mrows X) -> (forall a, In a (mrows Z ++ mrows X) -> length (T a) = n') ->
  (let! m := svm_train K self (map_rows n' T X) y in RRet (svm_predict K m (map_rows n' T Z))) = (let! m := svm_train K self X y in RRet (svm_predict K m Z)).
Proof. exact svm_isometric. Qed.
Print Assumptions C118_svm_isometric.
Theorem C118_gp_rigid : forall K mean cholesky solve_l solve_u self X y Z n' T, library_kernel K -> mwf X -> mwf Z -> mcols Z = mcols X -> rigid (mcols X) n' T ->
  mean (map_rows n' T X) = mean X -> mean (map_rows n' T Z) = mean Z ->
  exists m m' r, gp_train K mean cholesky solve_l solve_u self X y = (m, r) /\ gp_train K mean cholesky solve_l solve_u self (map_rows n' T X) y = (m', r) /\
    (r = Ok tt -> gp_predict K mean m' (map_rows n' T Z) = gp_predict K mean m Z /\
                  gp_get_posterior K mean solve_l m' (map_rows n' T Z) = gp_get_posterior K mean solve_l m Z).
Proof. exact gp_rigid. Qed.
Print Assumptions C118_gp_rigid.
Theorem C118_gp_isometric : forall K mean cholesky solve_l solve_u self X y Z n' T, distance_kernel K -> mwf X -> mwf Z -> mcols Z = mcols X ->
  similarity (mcols X) n' 1 T (mrows Z ++ mrows X) -> (forall a, In a (mrows Z ++ mrows X) -> length (T a) = n') ->
  mean (map_rows n' T X) = mean X -> mean (map_rows n' T Z) = mean Z ->
  exists m m' r, gp_train K mean cholesky solve_l solve_u self X y = (m, r) /\ gp_train K mean cholesky solve_l solve_u self (map_rows n' T X) y = (m', r) /\
    (r = Ok tt -> gp_predict K mean m' (map_rows n' T Z) = gp_predict K mean m Z /\
                  gp_get_posterior K mean solve_l m' (map_rows n' T Z) = gp_get_posterior K mean solve_l m Z).
Proof. exact gp_isometric. Qed.
Print Assumptions C118_gp_isometric.
(** C118: the constant mean function meets the hypothesis on the mean. *)
Theorem C118_const_mean : forall F (N : Num F) (c : F) n' T X, const_mean c (map_rows n' T X) = const_mean c X.
Proof. exact @const_mean_rows. Qed.
Print Assumptions C118_const_mean.
(** C118: the kernels of the inner product are not kept by moves. *)
Theorem C118_linear_sees_moves : k_linear 0 (moved [1] [0]) (moved [1] [0]) <> k_linear 0 [0] [0].
Proof. exact linear_sees_moves. Qed.
Print Assumptions C118_linear_sees_moves.

Example C118_ex : library_kernel (kernel_sum (k_linear 1) (k_squared_exp 1 1)) /\ mwf KX /\ mwf KZ /\ mcols KZ = mcols KX /\ rigid (mcols KX) 2 quarter /\
  map_rows 2 quarter KX = Mat [[-1; 0]; [-3; 2]; [1; 4]] 2.
Proof. exact kerinv_ex. Qed.
