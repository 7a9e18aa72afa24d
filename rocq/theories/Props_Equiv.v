(** * C117: least squares does not depend on the units and the order of the features, and follows those of the targets *)
From Coq Require Import List Arith Reals Permutation.
From Verif Require Import Base Num NumFn Linalg Model_Regression Spec_Regression Model_GLM Spec_GLM Proof_RegressionEx Spec_Equiv Proof_Equiv Proof_EquivEx.
Import ListNotations.
Local Open Scope R_scope.

(** C117: the same data described by other features ([f], for instance other units or another order of the columns) gives the same
    predictions, at training rows and at every row the training rows determine. *)
Theorem C117_features : forall solve solve' s s' f d' X y Z m m', solver_sound solve -> solver_sound solve' -> mwf X -> mwf Z -> mcols Z = mcols X ->
  same_affine (mcols X) d' f -> Forall (determined X) (mrows Z) ->
  lr_train solve s X y = (m, Ok tt) -> lr_train solve' s' (map_rows f d' X) y = (m', Ok tt) ->
  exists out, lr_predict m Z = Ok out /\ lr_predict m' (map_rows f d' Z) = Ok out.
Proof. exact lr_features. Qed.
Print Assumptions C117_features.
Theorem C117_features_glm : forall inverse inverse' s s' f d' X y Z m m', inverse_sound inverse -> inverse_sound inverse' -> mwf X -> mwf Z -> mcols Z = mcols X ->
  same_affine (mcols X) d' f -> Forall (determined X) (mrows Z) ->
  glm_train inverse Normal s X y = (m, Ok tt) -> glm_train inverse' Normal s' (map_rows f d' X) y = (m', Ok tt) ->
  exists out, glm_predict Normal m Z = Ok out /\ glm_predict Normal m' (map_rows f d' Z) = Ok out.
Proof. exact glm_features. Qed.
Print Assumptions C117_features_glm.
Theorem C117_units : forall d ab, length ab = d -> Forall (fun t => fst t <> 0) ab -> same_affine d d (new_units ab).
Proof. exact units_affine. Qed.
Print Assumptions C117_units.
Theorem C117_column_order : forall d pi, Permutation pi (seq 0 d) -> same_affine d d (new_order pi).
Proof. exact order_affine. Qed.
Print Assumptions C117_column_order.
Theorem C117_training_rows : forall X x, mwf X -> In x (mrows X) -> determined X x.
Proof. exact training_rows_determined. Qed.
Print Assumptions C117_training_rows.

(** C117: predictions are linear in the targets, and follow their units. *)
Theorem C117_targets : forall solve X y1 y2 y3 u v c Z s1 s2 s3 m1 m2 m3, solver_sound solve -> mwf X -> mwf Z -> mcols Z = mcols X -> Forall (determined X) (mrows Z) ->
  (forall i, (i < nrows X)%nat -> nth i y3 0 = u * nth i y1 0 + v * nth i y2 0 + c) ->
  lr_train solve s1 X y1 = (m1, Ok tt) -> lr_train solve s2 X y2 = (m2, Ok tt) -> lr_train solve s3 X y3 = (m3, Ok tt) ->
  exists o1 o2 o3, lr_predict m1 Z = Ok o1 /\ lr_predict m2 Z = Ok o2 /\ lr_predict m3 Z = Ok o3 /\ length o3 = nrows Z /\
    forall i, (i < nrows Z)%nat -> nth i o3 0 = u * nth i o1 0 + v * nth i o2 0 + c.
Proof. exact lr_targets. Qed.
Print Assumptions C117_targets.
Theorem C117_targets_glm : forall inverse X y1 y2 y3 u v c Z s1 s2 s3 m1 m2 m3, inverse_sound inverse -> mwf X -> mwf Z -> mcols Z = mcols X -> Forall (determined X) (mrows Z) ->
  (forall i, (i < nrows X)%nat -> nth i y3 0 = u * nth i y1 0 + v * nth i y2 0 + c) ->
  glm_train inverse Normal s1 X y1 = (m1, Ok tt) -> glm_train inverse Normal s2 X y2 = (m2, Ok tt) -> glm_train inverse Normal s3 X y3 = (m3, Ok tt) ->
  exists o1 o2 o3, glm_predict Normal m1 Z = Ok o1 /\ glm_predict Normal m2 Z = Ok o2 /\ glm_predict Normal m3 Z = Ok o3 /\ length o3 = nrows Z /\
    forall i, (i < nrows Z)%nat -> nth i o3 0 = u * nth i o1 0 + v * nth i o2 0 + c.
Proof. exact glm_targets. Qed.
Print Assumptions C117_targets_glm.

(** C117: giving every observation [k] times changes no prediction. *)
Theorem C117_repeated_data : forall solve solve' k X y Z s s' m m', solver_sound solve -> solver_sound solve' -> mwf X -> mwf Z -> mcols Z = mcols X -> (0 < k)%nat -> Forall (determined X) (mrows Z) ->
  lr_train solve s X y = (m, Ok tt) -> lr_train solve' s' (Mat (times k (mrows X)) (mcols X)) (times k y) = (m', Ok tt) ->
  exists out, lr_predict m Z = Ok out /\ lr_predict m' Z = Ok out.
Proof. exact lr_times. Qed.
Print Assumptions C117_repeated_data.

Example C117_ex : solver_sound cramer2 /\ mwf celsius /\ Forall (determined celsius) [[10]; [3]] /\ same_affine 1 1 (new_units fahrenheit) /\
  (forall y1 y2 y3, exists m, lr_train cramer2 lr_default celsius [y1; y2; y3] = (m, Ok tt)) /\
  (forall y1 y2 y3, exists m, lr_train cramer2 lr_default (map_rows (new_units fahrenheit) 1 celsius) [y1; y2; y3] = (m, Ok tt)) /\
  (exists m, lr_train cramer2 lr_default (Mat (times 2 (mrows celsius)) 1) (times 2 [5; 6; 8]) = (m, Ok tt)).
Proof. exact (conj cramer2_sound (conj celsius_wf (conj celsius_determined (conj fahrenheit_units (conj celsius_train (conj fahrenheit_train twice_train)))))). Qed.
