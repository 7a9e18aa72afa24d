(** * Model of [src/learning/lin_reg.rs] and [src/learning/logistic_reg.rs] *)
From Coq Require Import List Arith Bool.
From Verif Require Import Base Num NumFn Linalg Model_Cost Model_Toolkit Model_Optim.
Import ListNotations.
Local Open Scope num_scope.

Section Regression.
  Context {F : Type} {N : Num F}.

  (** [Matrix::ones(inputs.rows(), 1).hcat(inputs)] (lin_reg.rs lines 86-87). *)
  Definition with_ones (inputs : matrix F) : matrix F :=
    Mat (map (cons nonev) (mrows inputs)) (S (mcols inputs)).

  (** [Matrix * Vector] with the size assertion of [rulinalg]. *)
  Definition rmat_vec (m : matrix F) (v : list F) : res (list F) :=
    rassert (mcols m =? length v)%nat (Ok (mat_vec m v)).

  (** lin_reg.rs lines 46-49. *)
  Record LinRegressor := { lr_parameters : option (list F) }.
  (** lin_reg.rs lines 51-55. *)
  Definition lr_default : LinRegressor := {| lr_parameters := None |}.

  (** lin_reg.rs lines 85-92.  [Matrix::solve] of [rulinalg] is a parameter. *)
  Definition lr_train (solve : matrix F -> list F -> res (list F)) (self : LinRegressor)
      (inputs : matrix F) (targets : list F) : LinRegressor * res unit :=
    let full_inputs := with_ones inputs in
    let xt := transpose full_inputs in
    match (let? b := rmat_vec xt targets in solve (mat_mul xt full_inputs) b) with
    | Ok v => ({| lr_parameters := Some v |}, Ok tt)
    | Err k => (self, Err k)
    | Panic => (self, Panic)
    end.

  (** lin_reg.rs lines 97-105. *)
  Definition lr_predict (self : LinRegressor) (inputs : matrix F) : res (list F) :=
    match lr_parameters self with
    | Some v => rmat_vec (with_ones inputs) v
    | None => Err UntrainedModel
    end.

  (** lin_reg.rs lines 112-125. *)
  Definition lr_compute_grad (inputs : matrix F) (targets params : list F) : res (F * list F) :=
    let? outputs := rmat_vec inputs params in
    let? cost := mse_cost_vec outputs targets in
    let? diff := rvsub outputs targets in
    let? g := rmat_vec (transpose inputs) diff in
    Ok (cost, map (fun x => x / nofnat (nrows inputs)) g).

  (** grad_desc.rs lines 35-42; the literal 0.3 is the quotient 3/10. *)
  Definition gd_default : GradientDesc F := {| gd_alpha := nofnat 3 / nofnat 10; gd_iters := 100 |}.

  (** lin_reg.rs lines 151-160. *)
  Definition lr_train_with_optimization (self : LinRegressor) (inputs : matrix F) (targets : list F) : LinRegressor * res unit :=
    let full_inputs := with_ones inputs in
    let initial_params := repeat nzero (mcols full_inputs) in
    match gd_optimize gd_default (lr_compute_grad full_inputs targets) initial_params with
    | Ok w => ({| lr_parameters := Some w |}, Ok tt)
    | Err k => (self, Err k)
    | Panic => (self, Panic)
    end.

  Context {NF : NumFn F}.

  (** logistic_reg.rs lines 50-55 and 145-147; the optimiser is passed to [train]. *)
  Record LogisticRegressor := { log_parameters : option (list F) }.
  (** logistic_reg.rs lines 80-85. *)
  Definition log_new : LogisticRegressor := {| log_parameters := None |}.

  (** logistic_reg.rs lines 181-194. *)
  Definition log_compute_grad (inputs : matrix F) (targets params : list F) : res (F * list F) :=
    let? z := rmat_vec inputs params in
    let outputs := map sigmoid z in
    let? cost := ce_cost_vec outputs targets in
    let? diff := rvsub outputs targets in
    let? g := rmat_vec (transpose inputs) diff in
    Ok (cost, map (fun x => x / nofnat (nrows inputs)) g).

  (** logistic_reg.rs lines 116-125.  [optimize] is the [OptimAlgorithm]: any function of the objective and the
      start; the literal 0.5 is the quotient 1/2. *)
  Definition log_train (optimize : (list F -> res (F * list F)) -> list F -> res (list F))
      (self : LogisticRegressor) (inputs : matrix F) (targets : list F) : LogisticRegressor * res unit :=
    let full_inputs := with_ones inputs in
    let initial_params := repeat (nonev / (nonev + nonev)) (mcols full_inputs) in
    match optimize (log_compute_grad full_inputs targets) initial_params with
    | Ok w => ({| log_parameters := Some w |}, Ok tt)
    | Err k => (self, Err k)
    | Panic => (self, Panic)
    end.

  (** logistic_reg.rs lines 130-138. *)
  Definition log_predict (self : LogisticRegressor) (inputs : matrix F) : res (list F) :=
    match log_parameters self with
    | Some v => let? z := rmat_vec (with_ones inputs) v in Ok (map sigmoid z)
    | None => Err UntrainedModel
    end.
End Regression.
Arguments LinRegressor : clear implicits. Arguments LogisticRegressor : clear implicits.
