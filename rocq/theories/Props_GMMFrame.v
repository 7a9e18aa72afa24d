(** * C142: Gaussian mixture models in another frame of the features ([src/learning/gmm.rs]) *)
From Coq Require Import List Arith Lia Bool Reals Lra.
From Verif Require Import Base Num NumFn Linalg Spec_Calc Model_Rand Model_GMM Spec_GMM Proof_GMMEx Proof_EM2 Spec_GMMFrame Proof_GMMFrame2 Proof_GMMFrameEx.
Import ListNotations.
Local Open Scope R_scope.

(** C142: [x] becomes [A x + b] in all rows.  [D] is the determinant.  Both trainings make the same draws; if both succeed
    the models give every point the same probabilities, unless one of them stopped at its start. *)
Theorem C142_train : forall lup D X A Ai b, lup_sound lup -> inverses (mcols X) A Ai -> determinant (mcols X) D -> lup_det (mcols X) D lup -> mwf X ->
  forall self : GMM R, well_started self -> suits (gmm_cov_option self) (mcols X) A ->
  lockstep (fun p p' => snd p = Ok tt -> snd p' = Ok tt ->
    same_memberships lup (mcols X) A b (fst p) (fst p') \/
    (Rabs (D A) <> 1 /\ (stopped_at_start lup X self (fst p) \/ stopped_at_start lup (data_in_frame A b X) self (fst p'))))
    (gmm_train lup self X) (gmm_train lup self (data_in_frame A b X)).
Proof. exact train_frame. Qed.
Print Assumptions C142_train.
Example C142_train_case : lup_sound lupR /\ inverses (mcols D02) (scaled 3) (scaled (/ 3)) /\ determinant (mcols D02) (fun A => A 0%nat 0%nat) /\
  lup_det (mcols D02) (fun A => A 0%nat 0%nat) lupR /\ mwf D02 /\ well_started gmm2 /\ suits (gmm_cov_option gmm2) (mcols D02) (scaled 3) /\
  (exists m, outcome (gmm_train lupR gmm2 D02) (Some (m, Ok tt))) /\ exists m, outcome (gmm_train lupR gmm2 (data_in_frame (scaled 3) (fun _ => 1) D02)) (Some (m, Ok tt)).
Proof. exact (conj lupR_sound (conj (scaled_inv 3 ltac:(lra)) (conj determinant1 (conj lupR_det (conj D02_wf (conj gmm2_started (conj (suits2 3) (conj train2 (trainc 3 1 ltac:(lra)))))))))). Qed.

(** Rigid motions leave no exception. *)
Theorem C142_rigid : forall lup D X A Ai b, lup_sound lup -> inverses (mcols X) A Ai -> determinant (mcols X) D -> lup_det (mcols X) D lup -> mwf X ->
  forall self : GMM R, well_started self -> suits (gmm_cov_option self) (mcols X) A ->
  (forall p q, (p < mcols X)%nat -> (q < mcols X)%nat -> sumR (mcols X) (fun c => A p c * A q c) = delta p q) ->
  lockstep (fun p p' => snd p = Ok tt -> snd p' = Ok tt -> same_memberships lup (mcols X) A b (fst p) (fst p'))
    (gmm_train lup self X) (gmm_train lup self (data_in_frame A b X)).
Proof. exact train_rigid. Qed.
Print Assumptions C142_rigid.
Example C142_rigid_case : inverses (mcols D02) (scaled (-1)) (scaled (/ -1)) /\
  (forall p q, (p < mcols D02)%nat -> (q < mcols D02)%nat -> sumR (mcols D02) (fun c => scaled (-1) p c * scaled (-1) q c) = delta p q) /\
  exists m, outcome (gmm_train lupR gmm2 (data_in_frame (scaled (-1)) (fun _ => 5) D02)) (Some (m, Ok tt)).
Proof. exact (conj (scaled_inv (-1) ltac:(lra)) (conj mirror_rigid (trainc (-1) 5 ltac:(lra)))). Qed.

(** The exception is real: there is a unit for the data 0, 2 in which training returns its start. *)
Theorem C142_exception : exists c, 0 < c /\ forall self' r, outcome (gmm_train lupR gmm2 (data_in_frame (scaled c) (fun _ => 0) D02)) (Some (self', r)) ->
  r = Ok tt /\ stopped_at_start lupR (data_in_frame (scaled c) (fun _ => 0) D02) gmm2 self'.
Proof. exact unit_stops. Qed.
Print Assumptions C142_exception.
Example C142_exception_case : exists m, outcome (gmm_train lupR gmm2 (data_in_frame (scaled 2) (fun _ => 0) D02)) (Some (m, Ok tt)).
Proof. exact (trainc 2 0 ltac:(lra)). Qed.
