(** * C192: what models make of a constant target ([lin_reg.rs], [glm.rs], [knn/mod.rs], [svm.rs] in [src/learning]) *)
From Coq Require Import List Arith Lia Bool Reals Lra.
From Verif Require Import Base Num NumX NumFn Linalg Model_Regression Spec_Regression Proof_RegressionEx Model_GLM Spec_GLM Proof_GLMEx Spec_Equiv Proof_EquivEx Model_KNN
  Model_Kernel Model_SVM Spec_SVM Proof_SVMEx Proof_Constant.
Import ListNotations.
Local Open Scope R_scope.

(** C192: least squares answers the constant, at every row the training rows determine. *)
Theorem C192_linear : forall solve X c Z s m, solver_sound solve -> mwf X -> mwf Z -> mcols Z = mcols X -> Forall (determined X) (mrows Z) ->
  lr_train solve s X (repeat c (nrows X)) = (m, Ok tt) -> lr_predict m Z = Ok (repeat c (nrows Z)).
Proof. exact lr_constant. Qed.
Print Assumptions C192_linear.
Theorem C192_normal : forall inverse X c Z s m, inverse_sound inverse -> mwf X -> mwf Z -> mcols Z = mcols X -> Forall (determined X) (mrows Z) ->
  glm_train inverse Normal s X (repeat c (nrows X)) = (m, Ok tt) -> glm_predict Normal m Z = Ok (repeat c (nrows Z)).
Proof. exact normal_constant. Qed.
Print Assumptions C192_normal.
(** C192: a Poisson model never answers the constant count: it answers its exponential. *)
Theorem C192_poisson : forall inverse X c Z s m, inverse_sound inverse -> mwf X -> mwf Z -> mcols Z = mcols X -> Forall (determined X) (mrows Z) -> 1 / 10 ^ 10 <= c ->
  glm_train inverse Poisson s X (repeat c (nrows X)) = (m, Ok tt) -> glm_predict Poisson m Z = Ok (repeat (exp c) (nrows Z)) /\ c < exp c.
Proof. exact poisson_constant. Qed.
Print Assumptions C192_poisson.
(** C192: a neighbour classifier answers the label, with every search structure that finds rows of the training set. *)
Theorem C192_neighbours : forall (F S : Type) (s_search : S -> list F -> nat -> res (list nat * list F)) (c : KNNClassifier S) l n inputs,
  knn_target _ c = Some (repeat l n) ->
  (forall row, In row (mrows inputs) -> exists idx ds, s_search (knn_searcher _ c) row (knn_k _ c) = Ok (idx, ds) /\ idx <> [] /\ (forall i, In i idx -> (i < n)%nat)) ->
  knn_predict s_search c inputs = Ok (repeat l (nrows inputs)).
Proof. exact knn_constant. Qed.
Print Assumptions C192_neighbours.
(** C192: a support vector machine with a positive kernel answers the only class, whatever rows it draws. *)
Theorem C192_svm : forall (ker : Kernel X) k (self self' : SVM X) D lambda y, mwf D -> finite_kernel ker k (S (mcols D)) -> svm_lambda self = Fin lambda -> 0 < lambda ->
  (0 < svm_optim_iters self)%nat -> (forall u v, 0 < k u v) -> y = 1 \/ y = -1 ->
  outcome (svm_train ker self D (map Fin (repeat y (nrows D)))) (Some self') ->
  forall P, mwf P -> mcols P = mcols D -> svm_predict ker self' P = Ok (repeat (Fin y) (nrows P)).
Proof. exact svm_constant_target. Qed.
Print Assumptions C192_svm.
Example C192_ex : (exists m, lr_train cramer2 lr_default celsius (repeat 7 (nrows celsius)) = (m, Ok tt)) /\ Forall (determined celsius) [[10]; [3]] /\
  (exists self', outcome (svm_train kone (svm_cfg 5) SD (map Fin (repeat (-1) (nrows SD)))) (Some self')).
Proof. exact flat_cases. Qed.
Example C192_ex_poisson : inverse_sound inverse2 /\ exists m, glm_train inverse2 Poisson glm_new X01 (repeat 1 (nrows X01)) = (m, Ok tt).
Proof. exact (conj inverse2_sound poisson_flat). Qed.
