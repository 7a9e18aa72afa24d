(** * C173: one missing value makes gradient-descent regression answer NaN for everything, without an error *)
From Coq Require Import List Arith Lia Bool.
From Flocq Require Import BinarySingleNaN.
From Verif Require Import Base Num NumF NumFn Linalg Model_Optim Model_Regression Spec_NaN Spec_NaNReg Proof_SigB64Ex Proof_NaNEx Proof_NaNReg Proof_NaNRegEx.
Import ListNotations.

(** A NaN anywhere in the rows or the targets: training returns [Ok], every parameter is NaN ... *)
Theorem C173_linear_train : forall (self : LinRegressor B64) (X : matrix B64) y, mwf X -> length y = nrows X -> tainted X y ->
  exists w, lr_train_with_optimization self X y = ({| lr_parameters := Some w |}, Ok tt) /\ length w = S (mcols X) /\ all_nan w.
Proof. exact lin_nan. Qed.
Print Assumptions C173_linear_train.
Example C173_linear_train_case : mwf gappy /\ length gappy_y = nrows gappy /\ tainted gappy gappy_y.
Proof. exact (conj (proj1 case_gappy) (conj eq_refl gappy_tainted)). Qed.
(** ... and so is every answer. *)
Theorem C173_linear_predict : forall w (Z : matrix B64), all_nan w -> length w = S (mcols Z) ->
  exists o, lr_predict {| lr_parameters := Some w |} Z = Ok o /\ length o = nrows Z /\ all_nan o.
Proof. exact lin_nan_predict. Qed.
Print Assumptions C173_linear_predict.
Example C173_linear_predict_case : all_nan [qnan; qnan] /\ length [qnan; qnan] = S (mcols gappy).
Proof. split; [repeat constructor|reflexivity]. Qed.
Theorem C173_logistic_train : forall NF : NumFn B64, libm_nan -> forall (gd : GradientDesc B64) (self : LogisticRegressor B64) (X : matrix B64) y,
  gd_iters gd <> 0 -> mwf X -> length y = nrows X -> tainted X y ->
  exists w, log_train (gd_optimize gd) self X y = ({| log_parameters := Some w |}, Ok tt) /\ length w = S (mcols X) /\ all_nan w.
Proof. exact @log_nan. Qed.
Print Assumptions C173_logistic_train.
Example C173_logistic_train_case : @libm_nan libm_ex /\ tainted clean_x missing_y /\ mwf clean_x /\ length missing_y = nrows clean_x.
Proof. exact (conj libm_ex_nan (conj missing_tainted (conj clean_wf eq_refl))). Qed.
Theorem C173_logistic_predict : forall NF : NumFn B64, libm_nan -> forall w (Z : matrix B64), all_nan w -> length w = S (mcols Z) ->
  exists o, log_predict {| log_parameters := Some w |} Z = Ok o /\ length o = nrows Z /\ all_nan o.
Proof. exact @log_nan_predict. Qed.
Print Assumptions C173_logistic_predict.
Example C173_logistic_predict_case : all_nan [qnan; qnan] /\ length [qnan; qnan] = S (mcols clean_x).
Proof. split; [repeat constructor|reflexivity]. Qed.
