(** * C131, C132: gradient-trained models and the frame of the features ([src/learning/optim/*.rs], [lin_reg.rs], [logistic_reg.rs]) *)
From Coq Require Import List Arith Lia Bool Reals Lra Permutation.
From Verif Require Import Base Num NumFn Linalg Model_Optim Model_CG Model_Regression Spec_Regression Spec_DBSCAN2 Spec_KerInv Spec_OptEq
  Proof_KerInv Proof_OptEq Proof_OptEq2 Proof_OptEqEx.
Import ListNotations.
Local Open Scope R_scope.

(** C131: gradient descent, conjugate gradients and stochastic gradient descent do not see rotations, reflections and other maps that
    keep inner products: on the objective carried over by [T] they return the parameters carried over by [T]. *)
Theorem C131_gradient_descent : forall n n' T, rigid n n' T -> forall cg cg', carried n T cg cg' ->
  forall (self : GradientDesc R) start, length start = n ->
  exists w, gd_optimize self cg start = Ok w /\ length w = n /\ gd_optimize self cg' (T start) = Ok (T w).
Proof. exact gd_rigid. Qed.
Print Assumptions C131_gradient_descent.
Theorem C131_conjugate_gradients : forall n n' T, rigid n n' T -> forall cg cg', carried n T cg cg' ->
  forall (self : ConjugateGD R) start, length start = n ->
  cg_optimize self cg' (T start) = (let? w := cg_optimize self cg start in Ok (T w)) /\ (forall w, cg_optimize self cg start = Ok w -> length w = n).
Proof. exact cg_rigid. Qed.
Print Assumptions C131_conjugate_gradients.
Example C131_ex : rigid 2 2 mirror /\ carried 2 mirror bowl bowl.
Proof. exact (conj (mirror_rigid 2) (proj1 bowl_carried)). Qed.
(** For the same random draws. *)
Theorem C131_stochastic : forall n n' T cg cg' (inputs inputs' targets targets' : matrix R) self start, rigid n n' T ->
  carried_rows n T cg cg' inputs inputs' targets targets' -> length start = n ->
  sgd_optimize self cg' (T start) inputs' targets' = (let! w := sgd_optimize self cg start inputs targets in RRet (T w)).
Proof. exact sgd_rigid. Qed.
Print Assumptions C131_stochastic.
Example C131_ex_stochastic : rigid 2 2 mirror /\ carried_rows 2 mirror row_bowl row_bowl (Mat [[1]] 1) (Mat [[1]] 1) (Mat [[1]] 1) (Mat [[1]] 1).
Proof. exact (conj (mirror_rigid 2) (row_carried _)). Qed.
(** The order of the parameters plays no role, in any arithmetic, for any of the optimisers that work coordinate by coordinate. *)
Theorem C131_order_gd : forall F (N : Num F) n pi self cg cg' (start : list F), Permutation pi (seq 0 n) -> carried n (arrange pi) cg cg' -> length start = n ->
  exists w, gd_optimize self cg start = Ok w /\ length w = n /\ gd_optimize self cg' (arrange pi start) = Ok (arrange pi w).
Proof. exact gd_arrange. Qed.
Print Assumptions C131_order_gd.
Example C131_ex_order : Permutation [1; 0]%nat (seq 0 2) /\ carried 2 (arrange [1; 0]%nat) bowl bowl'.
Proof. split; [apply perm_swap|]. exact (proj2 bowl_carried). Qed.
Theorem C131_order_stochastic : forall F (N : Num F) n pi cg cg' (inputs inputs' targets targets' : matrix F) (start : list F), Permutation pi (seq 0 n) ->
  carried_rows n (arrange pi) cg cg' inputs inputs' targets targets' -> length start = n ->
  (forall self, sgd_optimize self cg' (arrange pi start) inputs' targets' = (let! w := sgd_optimize self cg start inputs targets in RRet (arrange pi w))) /\
  (forall self, ada_optimize self cg' (arrange pi start) inputs' targets' = (let! w := ada_optimize self cg start inputs targets in RRet (arrange pi w))) /\
  (forall self, rms_optimize self cg' (arrange pi start) inputs' targets' = (let! w := rms_optimize self cg start inputs targets in RRet (arrange pi w))).
Proof. exact stoch_arrange. Qed.
Print Assumptions C131_order_stochastic.
(** C131: so a linear regressor trained by gradient descent predicts the same in a rotated frame ... *)
Theorem C131_linear_regression : forall (s s' : LinRegressor R) X y Z n' T, mwf X -> mwf Z -> mcols Z = mcols X -> length y = nrows X -> (0 < nrows X)%nat -> rigid (mcols X) n' T ->
  exists m m' out, lr_train_with_optimization s X y = (m, Ok tt) /\ lr_train_with_optimization s' (map_rows n' T X) y = (m', Ok tt) /\
    lr_predict m Z = Ok out /\ lr_predict m' (map_rows n' T Z) = Ok out.
Proof. exact lin_rigid. Qed.
Print Assumptions C131_linear_regression.
(** ... and a logistic regressor too if the map fixes its start, the vector of halves ... *)
Theorem C131_logistic_regression : forall opt (s s' : LogisticRegressor R) X y Z n' T, mwf X -> mwf Z -> mcols Z = mcols X -> length y = nrows X -> (0 < nrows X)%nat -> rigid (mcols X) n' T ->
  T (repeat (1 / 2) (mcols X)) = repeat (1 / 2) n' -> (exists gd, opt = gd_optimize gd) \/ (exists c, opt = cg_optimize c) ->
  exists m m' r, log_train opt s X y = (m, r) /\ log_train opt s' (map_rows n' T X) y = (m', r) /\
    (r = Ok tt -> exists out, log_predict m Z = Ok out /\ log_predict m' (map_rows n' T Z) = Ok out).
Proof. exact log_rigid. Qed.
Print Assumptions C131_logistic_regression.
(** ... as any reordering of the features does. *)
Theorem C131_reordered_features : forall n pi, Permutation pi (seq 0 n) -> rigid n n (arrange pi) /\ arrange pi (repeat (1 / 2) n) = repeat (1 / 2) n.
Proof. exact (fun n pi H => conj (reordered_rigid n pi H) (arrange_half n pi H)). Qed.
Print Assumptions C131_reordered_features.
Example C131_ex_data : let X := Mat [[1; 2]; [0; 1]] 2 in mwf X /\ length [1; 0] = nrows X /\ (0 < nrows X)%nat /\ rigid (mcols X) 2 (arrange [1; 0]%nat) /\
  map_rows 2 (arrange [1; 0]%nat) X = Mat [[2; 1]; [1; 0]] 2.
Proof. split; [repeat constructor|]. split; [reflexivity|]. split; [cbn; lia|]. split; [|reflexivity]. apply reordered_rigid. apply perm_swap. Qed.

(** C132 fails: flipping the sign of the feature changes the predictions of a logistic regressor, because training starts
    from the vector of halves. *)
Theorem C132_refuted_mirrored_feature : exists gd X y Z m m' a b, mwf X /\ mwf Z /\ mcols Z = mcols X /\ length y = nrows X /\ rigid (mcols X) (mcols X) mirror /\
  gd_new (3 / 10) 1 = Ok gd /\
  log_train (gd_optimize gd) log_new X y = (m, Ok tt) /\ log_train (gd_optimize gd) log_new (map_rows (mcols X) mirror X) y = (m', Ok tt) /\
  log_predict m Z = Ok [a] /\ log_predict m' (map_rows (mcols X) mirror Z) = Ok [b] /\ a <> b.
Proof. exact mirrored_logistic. Qed.
Print Assumptions C132_refuted_mirrored_feature.
(** The loss is the same in both frames, so the difference vanishes as training nears the optimum (C96). *)
Theorem C132_same_loss : forall X y p n' T, mwf X -> length p = S (mcols X) -> length y = nrows X -> rigid (mcols X) n' T ->
  log_loss (map_rows n' T X) y (lifted T p) = log_loss X y p.
Proof. exact mirrored_loss. Qed.
Print Assumptions C132_same_loss.
Example C132_ex : mwf (Mat [[1]] 1) /\ length [1; 2] = S (mcols (Mat [[1]] 1)) /\ length [1] = nrows (Mat [[1]] 1) /\ rigid 1 1 mirror.
Proof. split; [repeat constructor|]. split; [reflexivity|]. split; [reflexivity|]. exact (mirror_rigid 1). Qed.
