(** * C114: scaled data does not depend on units ([src/data/transforms/]) *)
From Coq Require Import List Arith Reals Lra Lia Bool.
From Verif Require Import Base Num NumX Linalg Spec_Calc Model_Transforms Spec_Transforms Spec_Units Proof_Units Proof_TransformsEx Proof_UnitsEx.
Import ListNotations.
Local Open Scope R_scope.

(** C114: fitting on data [m] and on the same data in other units [m'] gives scalers that send any data [n] and the same
    data [n'] in those units to the same result. *)
Theorem C114_minmax_units : forall (a b : nat -> R), (forall j, 0 < a j) -> forall (smin smax : R) (m m' n n' : matrix R),
  rescaled a b m m' -> in_f64_range m -> in_f64_range m' -> (0 < nrows m)%nat -> (forall j, (j < mcols m)%nat -> varies m j) ->
  rescaled a b n n' -> mcols n = mcols m ->
  exists sc sc' out, minmax_fit (Fin smin) (Fin smax) (inj m) = Ok sc /\ minmax_fit (Fin smin) (Fin smax) (inj m') = Ok sc' /\
    minmax_transform sc (inj n) = Ok out /\ minmax_transform sc' (inj n') = Ok out.
Proof. exact minmax_units. Qed.
Print Assumptions C114_minmax_units.

Theorem C114_standardizer_units : forall (a b : nat -> R), (forall j, 0 < a j) -> forall (smean sstd : R) (m m' n n' : matrix R),
  rescaled a b m m' -> (2 <= nrows m)%nat -> (forall j, (j < mcols m)%nat -> varies m j) ->
  rescaled a b n n' -> mcols n = mcols m ->
  exists st st' out, standardizer_fit (Fin smean) (Fin sstd) (inj m) = Ok st /\ standardizer_fit (Fin smean) (Fin sstd) (inj m') = Ok st' /\
    standardizer_transform st (inj n) = Ok out /\ standardizer_transform st' (inj n') = Ok out.
Proof. exact standardizer_units. Qed.
Print Assumptions C114_standardizer_units.

Example C114_ex_units : let a := fun _ : nat => 9 / 5 in let b := fun _ : nat => 32 in
  (forall j, 0 < a j) /\ rescaled a b (Mat [[0]; [100]] 1) (Mat [[32]; [212]] 1) /\ in_f64_range (Mat [[0]; [100]] 1) /\
  in_f64_range (Mat [[32]; [212]] 1) /\ (forall j, (j < 1)%nat -> varies (Mat [[0]; [100]] 1) j) /\
  rescaled a b (Mat [[50]] 1) (Mat [[122]] 1).
Proof. exact temperatures. Qed.

(** The normaliser forgets the length of every row. *)
Theorem C114_normalizer_units : forall (c : nat -> R) (m m' : matrix R), (forall i, 0 < c i) -> rows_rescaled c m m' ->
  normalize norm2 (inj m') = normalize norm2 (inj m).
Proof. exact normalizer_units. Qed.
Print Assumptions C114_normalizer_units.

Example C114_ex_rows : rows_rescaled (fun i => INR i + 1) (Mat [[3; 4]; [0; 1]] 2) (Mat [[3; 4]; [0; 2]] 2).
Proof. exact stretched_rows. Qed.

(** Scaling data that was scaled before changes nothing. *)
Theorem C114_minmax_twice : forall (smin smax : R) (m : matrix R), smin < smax -> - f64_max_R <= smin -> smax <= f64_max_R ->
  mwf m -> in_f64_range m -> (0 < nrows m)%nat -> (forall j, (j < mcols m)%nat -> varies m j) ->
  exists sc sc' out, minmax_fit (Fin smin) (Fin smax) (inj m) = Ok sc /\ minmax_transform sc (inj m) = Ok out /\
    minmax_fit (Fin smin) (Fin smax) out = Ok sc' /\ minmax_transform sc' out = Ok out.
Proof. exact minmax_idempotent. Qed.
Print Assumptions C114_minmax_twice.

Theorem C114_standardizer_twice : forall (smean sstd : R) (m : matrix R), 0 < sstd -> mwf m -> (2 <= nrows m)%nat ->
  (forall j, (j < mcols m)%nat -> varies m j) ->
  exists st st' out, standardizer_fit (Fin smean) (Fin sstd) (inj m) = Ok st /\ standardizer_transform st (inj m) = Ok out /\
    standardizer_fit (Fin smean) (Fin sstd) out = Ok st' /\ standardizer_transform st' out = Ok out.
Proof. exact standardizer_idempotent. Qed.
Print Assumptions C114_standardizer_twice.

Example C114_ex_twice : mwf exm /\ in_f64_range exm /\ (0 < nrows exm)%nat /\
  (forall j, (j < mcols exm)%nat -> varies exm j) /\ is_col_min exm 0 1 /\ is_col_max exm 0 3.
Proof. exact exm_ok. Qed.
