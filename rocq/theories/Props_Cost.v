(** * C08, C44: regression score and cost functions
      ([src/analysis/score.rs], [src/learning/toolkit/cost_fn.rs]) *)
From Coq Require Import List Arith Reals Lra Lia.
From Verif Require Import Base Num NumFn Linalg LinalgR Spec_Calc CalcR Model_Cost Spec_Cost Proof_Cost.
Import ListNotations.
Local Open Scope R_scope.

(** C08 *)
Theorem C08_neg_mean_squared_error : forall o t : matrix R, mwf o -> mwf t ->
  (same_shape o t = false -> neg_mean_squared_error o t = Panic) /\
  (same_shape o t = true -> (0 < nrows o)%nat ->
    neg_mean_squared_error o t = Ok (- mean_squared_error o t) /\
    - mean_squared_error o t <= 0 /\
    (mean_squared_error o t = 0 <-> o = t)).
Proof. exact nmse_spec. Qed.
Print Assumptions C08_neg_mean_squared_error.

Definition exo : matrix R := Mat [[1/2; 1/4]; [1/4; 1/2]] 2.
Definition ext : matrix R := Mat [[1; 0]; [0; 1]] 2.
Example C08_ex : mwf exo /\ mwf ext /\ same_shape exo ext = true /\
  neg_mean_squared_error exo ext = Ok (- (5 / 16)).
Proof.
  assert (W1 : mwf exo) by (repeat constructor). assert (W2 : mwf ext) by (repeat constructor).
  split; auto. split; auto. split; [reflexivity|].
  destruct (C08_neg_mean_squared_error exo ext W1 W2) as [_ H]. destruct (H eq_refl) as [-> _].
  - unfold nrows; simpl; lia.
  - f_equal. f_equal. unfold mean_squared_error, sum_entries, entry; simpl. lra.
Qed.

(** C44 fails, C63 holds: [grad_cost] is the number of rows times the derivative of [cost]: the costs average over
    the rows, the gradients do not. *)
Theorem C63_mse_gradient_times_rows : forall (o t : matrix R) (i j : nat),
  mwf o -> mwf t -> same_shape o t = true -> (i < nrows o)%nat -> (j < mcols o)%nat ->
  has_partial (fun o => mse_cost o t) o i j ((entry o i j - entry t i j) / INR (nrows o)) /\
  exists g, mse_grad o t = Ok g /\ nrows g = nrows o /\ mcols g = mcols o /\
            entry g i j = entry o i j - entry t i j.
Proof. exact (fun o t i j a b c d e => conj (mse_partial o t i j a b c d e) (mse_grad_entry o t i j a b c d e)). Qed.
Print Assumptions C63_mse_gradient_times_rows.

Theorem C63_cross_entropy_gradient_times_rows : forall (o t : matrix R) (i j : nat),
  mwf o -> mwf t -> same_shape o t = true -> (i < nrows o)%nat -> (j < mcols o)%nat ->
  0 < entry o i j < 1 ->
  has_partial (fun o => ce_cost o t) o i j
    ((entry o i j - entry t i j) / (entry o i j * (1 - entry o i j)) / INR (nrows o)) /\
  exists g, ce_grad o t = Ok g /\ nrows g = nrows o /\ mcols g = mcols o /\
            entry g i j = (entry o i j - entry t i j) / (entry o i j * (1 - entry o i j)).
Proof. exact (fun o t i j a b c d e f => conj (ce_partial o t i j a b c d e f) (ce_grad_entry o t i j a b c d e)). Qed.
Print Assumptions C63_cross_entropy_gradient_times_rows.

(** The vector versions: the number of components takes the place of the number of rows. *)
Theorem C63_mse_gradient_vector : forall o t : list R,
  (length o <> length t -> mse_cost_vec o t = Panic /\ mse_grad_vec o t = Panic) /\
  (length o = length t -> forall i, (i < length o)%nat ->
   has_partial_vec (fun o => mse_cost_vec o t) o i ((nth i o 0 - nth i t 0) / INR (length o)) /\
   exists g, mse_grad_vec o t = Ok g /\ length g = length o /\ nth i g 0 = nth i o 0 - nth i t 0).
Proof. exact mse_vec_spec. Qed.
Print Assumptions C63_mse_gradient_vector.

Theorem C63_cross_entropy_gradient_vector : forall o t : list R,
  (length o <> length t -> ce_cost_vec o t = Panic /\ ce_grad_vec o t = Panic) /\
  (length o = length t -> forall i, (i < length o)%nat -> 0 < nth i o 0 < 1 ->
   has_partial_vec (fun o => ce_cost_vec o t) o i
     ((nth i o 0 - nth i t 0) / (nth i o 0 * (1 - nth i o 0)) / INR (length o)) /\
   exists g, ce_grad_vec o t = Ok g /\ length g = length o /\
     nth i g 0 = (nth i o 0 - nth i t 0) / (nth i o 0 * (1 - nth i o 0))).
Proof. exact ce_vec_spec. Qed.
Print Assumptions C63_cross_entropy_gradient_vector.

Example C63_vec_ex : length [1/2; 1/4] = length [1; 0] /\ 0 < nth 0 [1/2; 1/4] 0 < 1 /\
  has_partial_vec (fun o => mse_cost_vec o [1; 0]) [1/2; 1/4] 0 (- (1/4)).
Proof.
  split; auto. split; [simpl; lra|].
  destruct (C63_mse_gradient_vector [1/2; 1/4] [1; 0]) as [_ H].
  destruct (H eq_refl 0%nat) as [P _]; [simpl; lia|]. replace (- (1/4)) with ((nth 0 [1/2; 1/4] 0 - nth 0 [1; 0] 0) / INR (length [1/2; 1/4])); auto.
  simpl. lra.
Qed.

Theorem C44_cross_entropy_value : forall o t : matrix R, mwf o -> mwf t -> same_shape o t = true ->
  ce_cost o t = Ok (cross_entropy o t).
Proof. exact ce_cost_entries. Qed.
Print Assumptions C44_cross_entropy_value.

(** Hence the claim "grad_cost is the gradient of cost" fails for every data set with at least two
    rows and a non-zero residual. *)
Theorem C44_refuted_mse_gradient : forall (o t : matrix R) (i j : nat),
  mwf o -> mwf t -> same_shape o t = true -> (i < nrows o)%nat -> (j < mcols o)%nat ->
  (2 <= nrows o)%nat -> entry o i j <> entry t i j ->
  exists g d, mse_grad o t = Ok g /\ has_partial (fun o => mse_cost o t) o i j d /\ entry g i j <> d.
Proof. exact mse_grad_refuted. Qed.
Print Assumptions C44_refuted_mse_gradient.

Example C44_ex : mwf exo /\ mwf ext /\ same_shape exo ext = true /\ (2 <= nrows exo)%nat /\
  (0 < entry exo 0 0 < 1) /\ entry exo 0 0 <> entry ext 0 0.
Proof. unfold entry, nrows; simpl. repeat split; try repeat constructor; try lra. Qed.
