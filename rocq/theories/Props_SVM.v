(** * C55, C80, C81: support vector machine ([src/learning/svm.rs]) *)
From Coq Require Import List Arith Lia Bool Reals Lra.
From Verif Require Import Base Num NumX NumFn Linalg Model_Regression Model_Kernel Model_SVM Spec_SVM Proof_SVM Proof_SVM2 Proof_SVMEx.
Import ListNotations.
Local Open Scope R_scope.

(** C55: exact arithmetic with infinities and NaN; kernel values and targets may be any of these. *)
Theorem C55_coefficients : forall (ker : Kernel X) k (self self' : SVM X) D y,
  mwf D -> ker_on ker k (S (mcols D)) -> (0 < svm_optim_iters self)%nat -> outcome (svm_train ker self D y) (Some self') ->
  exists a : list R, svm_alpha self' = Some (map Fin a) /\ length a = nrows D /\ Forall (fun v => 0 <= v <= 1) a /\ fold_right Rplus 0 a <= 1.
Proof. exact svm_coefficients. Qed.
Print Assumptions C55_coefficients.
Theorem C55_predict : forall (ker : Kernel X) k (self self' : SVM X) D y lambda,
  mwf D -> finite_kernel ker k (S (mcols D)) -> svm_lambda self = Fin lambda -> 0 < lambda -> length y = nrows D -> (0 < svm_optim_iters self)%nat ->
  forall P, outcome (svm_train ker self D (map Fin y)) (Some self') -> mwf P -> mcols P = mcols D ->
  exists a out, svm_alpha self' = Some (map Fin a) /\ length a = nrows D /\ svm_predict ker self' P = Ok out /\ length out = nrows P /\
    forall i, (i < nrows P)%nat -> nth i out NaN = if Rlt_dec (expansion k D a y (lifted P i)) 0 then Fin (-1) else Fin 1.
Proof. exact svm_predict_sign. Qed.
Print Assumptions C55_predict.
Theorem C55_untrained : forall (F : Type) (N : Num F) ker lambda (P : matrix F), svm_predict ker (svm_new lambda) P = Err UntrainedModel.
Proof. exact @svm_untrained. Qed.
Print Assumptions C55_untrained.
Theorem C55_width : forall (F : Type) (N : Num F) ker (self : SVM F) al T y P,
  svm_alpha self = Some al -> svm_train_inputs self = Some T -> svm_train_targets self = Some y ->
  mcols T <> S (mcols P) -> svm_predict ker self P = Err InvalidState.
Proof. exact @svm_width. Qed.
Print Assumptions C55_width.
Theorem C55_training_succeeds : forall (F : Type) (N : Num F) (ker : Kernel F) k (self : SVM F) D y,
  mwf D -> ker_on ker k (S (mcols D)) -> (0 < nrows D <= length y)%nat -> ~ outcome (svm_train ker self D y) None.
Proof. exact @svm_no_panic. Qed.
Print Assumptions C55_training_succeeds.
(** [optim_iters] is a public field; with 0 the coefficients and all predictions are NaN. *)
Theorem C55_refuted_zero_iterations : forall self' : SVM X, outcome (svm_train kone (svm_cfg 0) SD [Fin 1; Fin (-1)]) (Some self') ->
  svm_alpha self' = Some [NaN; NaN] /\ svm_predict kone self' SD = Ok [NaN; NaN].
Proof. exact svm_zero_iters. Qed.
Print Assumptions C55_refuted_zero_iterations.
(** Too many targets are accepted by [train] and make [predict] panic. *)
Theorem C55_refuted_many_targets : forall (F : Type) (N : Num F) (ker : Kernel F) k (self self' : SVM F) D y P,
  mwf D -> ker_on ker k (S (mcols D)) -> (nrows D < length y)%nat -> outcome (svm_train ker self D y) (Some self') ->
  mwf P -> mcols P = mcols D -> svm_predict ker self' P = Panic.
Proof. exact @svm_many_targets. Qed.
Print Assumptions C55_refuted_many_targets.
Example C55_ex : mwf SD /\ finite_kernel kone (fun _ _ => 1) (S (mcols SD)) /\ nrows SD = 2%nat /\ svm_lambda (svm_cfg 7) = Fin 1 /\ svm_optim_iters (svm_cfg 7) = 7%nat /\
  (exists self', outcome (svm_train kone (svm_cfg 7) SD (map Fin [1; -1])) (Some self')) /\
  (exists self', outcome (svm_train kone (svm_cfg 0) SD [Fin 1; Fin (-1)]) (Some self')) /\
  (exists self', outcome (svm_train kone (svm_cfg 7) SD (map Fin [1; -1; 1])) (Some self')).
Proof.
  split; [exact SD_wf|]. split; [apply kone_finite|]. do 3 (split; [reflexivity|]). split; [|split]; apply svm_ex; cbn; lia.
Qed.

(** C80: the trained coefficients should be those of the kernelised Pegasos rule. *)
Theorem C80_refuted : forall (self' : SVM X) draws, outcome (svm_train kone (svm_cfg 2) S1 [Fin 1]) (Some self') ->
  length draws = 2%nat -> Forall (fun i => (i < 1)%nat) draws ->
  svm_alpha self' = Some [Fin 0] /\ pegasos (fun _ _ => 1) 1 [[1; 0]] [1] 1 draws (fun _ => 0%nat) 0%nat = 2%nat.
Proof. exact svm_not_pegasos. Qed.
Print Assumptions C80_refuted.
Example C80_ex : (exists self', outcome (svm_train kone (svm_cfg 2) S1 [Fin 1]) (Some self')) /\ length [0; 0]%nat = 2%nat /\ Forall (fun i => (i < 1)%nat) [0; 0]%nat.
Proof. split; [|split; [reflexivity|repeat constructor]]. apply (svm_runs kone (fun _ _ => 1)); [exact S1_wf|apply kone_finite|cbn; lia]. Qed.

(** C81: what the coefficients are. *)
Theorem C81_share_of_steps : forall (ker : Kernel X) k (self self' : SVM X) D y lambda,
  mwf D -> finite_kernel ker k (S (mcols D)) -> svm_lambda self = Fin lambda -> 0 < lambda -> length y = nrows D -> (0 < svm_optim_iters self)%nat ->
  outcome (svm_train ker self D (map Fin y)) (Some self') ->
  exists draws, length draws = svm_optim_iters self /\ Forall (fun i => (i < nrows D)%nat) draws /\
    svm_alpha self' = Some (map (fun j => Fin (INR (hits (short_margin k lambda D y) j 0 draws) / INR (svm_optim_iters self))) (seq 0 (nrows D))) /\
    svm_train_inputs self' = Some (with_ones D) /\ svm_train_targets self' = Some (map Fin y) /\ svm_lambda self' = Fin lambda.
Proof. exact svm_share. Qed.
Print Assumptions C81_share_of_steps.
Theorem C81_ignored_rows : forall (ker : Kernel X) k (self self' : SVM X) D y lambda,
  mwf D -> finite_kernel ker k (S (mcols D)) -> svm_lambda self = Fin lambda -> 0 < lambda -> length y = nrows D -> (0 < svm_optim_iters self)%nat ->
  forall i, outcome (svm_train ker self D (map Fin y)) (Some self') -> (i < nrows D)%nat ->
  lambda * INR (svm_optim_iters self - 1) <= nth i y 0 * sumR (nrows D) (fun j => k (lifted D i) (lifted D j)) ->
  exists a, svm_alpha self' = Some (map Fin a) /\ nth i a 0 = 0.
Proof. exact svm_ignored. Qed.
Print Assumptions C81_ignored_rows.
Theorem C81_constant_classifier : forall (ker : Kernel X) k (self self' : SVM X) D y lambda,
  mwf D -> finite_kernel ker k (S (mcols D)) -> svm_lambda self = Fin lambda -> 0 < lambda -> length y = nrows D -> (0 < svm_optim_iters self)%nat ->
  (forall u v, 0 < k u v) ->
  (forall i, (i < nrows D)%nat -> 0 < nth i y 0 ->
     lambda * INR (svm_optim_iters self - 1) <= nth i y 0 * sumR (nrows D) (fun j => k (lifted D i) (lifted D j))) ->
  outcome (svm_train ker self D (map Fin y)) (Some self') ->
  exists c, forall P, mwf P -> mcols P = mcols D -> svm_predict ker self' P = Ok (repeat c (nrows P)).
Proof. exact svm_constant. Qed.
Print Assumptions C81_constant_classifier.
Example C81_ex : (forall i, (i < nrows SD)%nat -> 0 < nth i [1; -1] 0 ->
     1 * INR (svm_optim_iters (svm_cfg 3) - 1) <= nth i [1; -1] 0 * sumR (nrows SD) (fun j => (fun _ _ => 1) (lifted SD i) (lifted SD j))) /\
  exists self', outcome (svm_train kone (svm_cfg 3) SD (map Fin [1; -1])) (Some self').
Proof. split; [intros [|[|i]] Hi Hp; cbn in *; lra || lia|apply svm_ex; cbn; lia]. Qed.
