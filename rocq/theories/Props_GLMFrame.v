(** * C138, C139: generalised linear models and the frame of the features ([src/learning/glm.rs]) *)
From Coq Require Import List Arith Reals Lra.
From Verif Require Import Base Num NumFn Linalg Spec_Regression Model_GLM Spec_GLM Proof_GLMEx Spec_Equiv Proof_Equiv Spec_GLMFrame Proof_GLMFrame Proof_GLMFrameEx.
Import ListNotations.
Local Open Scope R_scope.

(** C138, refuted: two training rows with labels 0 and 1. With the feature measured as 0 and 1, the row labelled 0 gets a probability below one half;
    with the same feature measured as 10 and 99999999990 training stops after one pass and the same row gets a probability above one half. *)
Theorem C138_refuted_units : same_affine 1 1 (new_units other_units) /\
  exists m m' u v, glm_train inverse2 Bernoulli glm_new X01 [0; 1] = (m, Ok tt) /\ glm_train inverse2 Bernoulli glm_new (map_rows (new_units other_units) 1 X01) [0; 1] = (m', Ok tt) /\
  glm_predict Bernoulli m (Mat [[0]] 1) = Ok [u] /\ u < 1 / 2 /\ glm_predict Bernoulli m' (map_rows (new_units other_units) 1 (Mat [[0]] 1)) = Ok [v] /\ 1 / 2 < v.
Proof. exact (conj other_affine units_matter). Qed.
Print Assumptions C138_refuted_units.
(** What does hold for positive counts: Poisson regression predicts the same in every frame, at every row. *)
Theorem C138_poisson : forall inverse inverse' f d' self self1 X y m m', inverse_sound inverse -> inverse_sound inverse' -> mwf X -> same_affine (mcols X) d' f ->
  (forall i, (i < length y)%nat -> 1 / 10 ^ 10 <= nth i y 0) ->
  glm_train inverse Poisson self X y = (m, Ok tt) -> glm_train inverse' Poisson self1 (map_rows f d' X) y = (m', Ok tt) ->
  forall Z, mwf Z -> mcols Z = mcols X -> exists out, glm_predict Poisson m Z = Ok out /\ glm_predict Poisson m' (map_rows f d' Z) = Ok out.
Proof. exact poisson_frame. Qed.
Print Assumptions C138_poisson.
Example C138_poisson_ex : inverse_sound inverse2 /\ same_affine 1 1 (new_units [(2, 1)]) /\ map_rows (new_units [(2, 1)]) 1 X01 = X13 /\
  (exists m, glm_train inverse2 Poisson glm_new X01 [1; 3] = (m, Ok tt) /\ glm_parameters m = Some [1; 2]) /\
  exists m, glm_train inverse2 Poisson glm_new X13 [1; 3] = (m, Ok tt) /\ glm_parameters m = Some [0; 1].
Proof.
  split; [exact inverse2_sound|]. split; [apply units_affine; [reflexivity|repeat constructor; cbn; lra]|]. exact (conj X13_rows (conj (poisson_ex glm_new) (poisson_ex13 glm_new))).
Qed.

(** C139: training makes between one and eight passes of weighted least squares and stops before the eighth exactly when the coefficients moved by less than 1e-10. *)
Theorem C139_passes : forall inverse cr self X y self', library_criterion cr -> inverse_sound inverse -> mwf X -> glm_train inverse cr self X y = (self', Ok tt) ->
  length y = nrows X /\ exists k path, (1 <= k <= 8)%nat /\ glm_parameters self' = Some (path k) /\ path 0%nat = repeat 0 (S (mcols X)) /\
    (forall j, (1 <= j <= k)%nat -> exists mu z, after_pass cr X y j (path j) mu z) /\
    (forall j, (S j < k)%nat -> moved_on (path j) (path (S j))) /\ ((k < 8)%nat -> ~ moved_on (path (k - 1)%nat) (path k)).
Proof. exact train_path. Qed.
Print Assumptions C139_passes.
(** Pass by pass, the fitted functions, the means and the working responses are the same in every frame. *)
Theorem C139_same_passes : forall cr f d' X y k p p' mu mu' z z', mwf X -> same_affine (mcols X) d' f ->
  after_pass cr X y k p mu z -> after_pass cr (map_rows f d' X) y k p' mu' z' ->
  mu' = mu /\ z' = z /\ forall x, length x = mcols X -> affine p' (f x) = affine p x.
Proof. exact passes_frame. Qed.
Print Assumptions C139_same_passes.
(** So two models trained in two frames differ at most in where they stopped. *)
Theorem C139_frames : forall inverse inverse' cr f d' self self1 X y m m', library_criterion cr -> inverse_sound inverse -> inverse_sound inverse' -> mwf X -> same_affine (mcols X) d' f ->
  glm_train inverse cr self X y = (m, Ok tt) -> glm_train inverse' cr self1 (map_rows f d' X) y = (m', Ok tt) ->
  exists k k' path path', (1 <= k <= 8)%nat /\ (1 <= k' <= 8)%nat /\ glm_parameters m = Some (path k) /\ glm_parameters m' = Some (path' k') /\
    (forall j x, (1 <= j)%nat -> (j <= k)%nat -> (j <= k')%nat -> length x = mcols X -> affine (path' j) (f x) = affine (path j) x) /\
    (k = k' -> forall Z, mwf Z -> mcols Z = mcols X -> exists out, glm_predict cr m Z = Ok out /\ glm_predict cr m' (map_rows f d' Z) = Ok out) /\
    (path 0%nat = repeat 0 (S (mcols X)) /\ path' 0%nat = repeat 0 (S d') /\
     (forall j, (S j < k)%nat -> moved_on (path j) (path (S j))) /\ ((k < 8)%nat -> ~ moved_on (path (k - 1)%nat) (path k)) /\
     (forall j, (S j < k')%nat -> moved_on (path' j) (path' (S j))) /\ ((k' < 8)%nat -> ~ moved_on (path' (k' - 1)%nat) (path' k'))).
Proof. exact trained_frame. Qed.
Print Assumptions C139_frames.
Example C139_ex : library_criterion Bernoulli /\ inverse_sound inverse2 /\ same_affine 1 1 (new_units other_units) /\
  (exists m p, glm_train inverse2 Bernoulli glm_new X01 [0; 1] = (m, Ok tt) /\ glm_parameters m = Some p /\ length p = 2%nat /\ nth 0 p 0 < 0) /\
  exists m, glm_train inverse2 Bernoulli glm_new Xbig [0; 1] = (m, Ok tt) /\ glm_parameters m = Some [0; / 100000000000].
Proof. exact (conj lc_bernoulli (conj inverse2_sound (conj other_affine (conj train01 train_big)))). Qed.
