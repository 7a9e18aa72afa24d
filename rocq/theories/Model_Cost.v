(** * Model of [src/learning/toolkit/cost_fn.rs] and [neg_mean_squared_error] *)
From Coq Require Import List Arith Bool.
From Verif Require Import Base Num NumFn Linalg.
Import ListNotations.
Local Open Scope num_scope.

Section Cost.
  Context {F : Type} {N : Num F} {NF : NumFn F}.

  (** cost_fn.rs lines 30-37 ([MeanSqError], matrices).  [outputs - targets] asserts equal
      shapes. *)
  Definition mse_cost (outputs targets : matrix F) : res F :=
    rassert (same_shape outputs targets)
      (let diff := mzip nsub outputs targets in
       let sq_diff := mzip nmul diff diff in
       let n := nrows diff in
       Ok (msum sq_diff / ((nonev + nonev) * nofnat n))).

  (** cost_fn.rs lines 39-41. *)
  Definition mse_grad (outputs targets : matrix F) : res (matrix F) :=
    rassert (same_shape outputs targets) (Ok (mzip nsub outputs targets)).

  (** cost_fn.rs lines 45-52 ([MeanSqError], vectors). *)
  Definition mse_cost_vec (outputs targets : list F) : res F :=
    rassert (length outputs =? length targets)%nat
      (let diff := vsub outputs targets in
       let sq_diff := velemul diff diff in
       let n := length diff in
       Ok (vsum sq_diff / ((nonev + nonev) * nofnat n))).

  (** cost_fn.rs lines 54-56. *)
  Definition mse_grad_vec (outputs targets : list F) : res (list F) :=
    rassert (length outputs =? length targets)%nat (Ok (vsub outputs targets)).

  (** cost_fn.rs lines 64-75 ([CrossEntropyError], matrices); [-x + 1f64] is [1 - x]. *)
  Definition ce_cost (outputs targets : matrix F) : res F :=
    rassert (same_shape outputs targets)
      (let log_inv_output := mmap nln (mmap (fun x => - x + nonev) outputs) in
       let log_output := mmap nln outputs in
       let mat_cost := mzip nadd (mzip nmul targets log_output)
                         (mzip nmul (mmap (fun x => - x + nonev) targets) log_inv_output) in
       let n := nrows outputs in
       Ok (- msum mat_cost / nofnat n)).

  (** cost_fn.rs lines 77-79. *)
  Definition ce_grad (outputs targets : matrix F) : res (matrix F) :=
    rassert (same_shape outputs targets)
      (Ok (mzip ndiv (mzip nsub outputs targets)
             (mzip nmul outputs (mmap (fun x => - x + nonev) outputs)))).

  (** cost_fn.rs lines 83-94 ([CrossEntropyError], vectors). *)
  Definition ce_cost_vec (outputs targets : list F) : res F :=
    rassert (length outputs =? length targets)%nat
      (let log_inv_output := map nln (map (fun x => - x + nonev) outputs) in
       let log_output := map nln outputs in
       let cost := vadd (velemul targets log_output)
                     (velemul (map (fun x => - x + nonev) targets) log_inv_output) in
       let n := length outputs in
       Ok (- vsum cost / nofnat n)).

  (** cost_fn.rs lines 96-98. *)
  Definition ce_grad_vec (outputs targets : list F) : res (list F) :=
    rassert (length outputs =? length targets)%nat
      (Ok (map2 ndiv (vsub outputs targets)
             (velemul outputs (map (fun x => - x + nonev) outputs)))).

  (** score.rs lines 208-212. *)
  Definition neg_mean_squared_error (outputs targets : matrix F) : res F :=
    let? c := mse_cost outputs targets in Ok (- (nonev + nonev) * c).
End Cost.
