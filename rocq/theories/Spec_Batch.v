(** Specification: predicting a batch of rows is predicting each row by itself. *)
From Coq Require Import List.
From Verif Require Import Base Num NumFn Linalg Model_NNet.
Import ListNotations.

(** The matrix with the single row [r] of width [w]. *)
Definition single_row {F} (w : nat) (r : list F) : matrix F := Mat [r] w.
(** A batch is answered exactly when every row alone is, and with the same answers. *)
Definition row_by_row {F T} (predict : matrix F -> res (list T)) : Prop :=
  forall (M : matrix F) (out : list T), mwf M -> 0 < nrows M ->
    (predict M = Ok out <-> Forall2 (fun r y => predict (single_row (mcols M) r) = Ok [y]) (mrows M) out).
Definition row_by_row_mat {F T} (predict : matrix F -> res (matrix T)) : Prop :=
  forall (M : matrix F) (out : matrix T), mwf M -> 0 < nrows M ->
    (predict M = Ok out <-> Forall2 (fun r y => predict (single_row (mcols M) r) = Ok (single_row (mcols out) y)) (mrows M) (mrows out)).
(** The layers of the crate. *)
Definition plain_layer {F} {N : Num F} {NF : NumFn F} (l : NetLayer F) : Prop := (exists s, l = linear_layer s) \/ (exists a, l = activ_layer a).
