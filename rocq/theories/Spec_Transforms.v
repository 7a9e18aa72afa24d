(** * Specification of the data transforms *)
From Coq Require Import List Arith Reals.
From Verif Require Import Base Num NumX Linalg Spec_Calc Model_Transforms.
Import ListNotations.
Local Open Scope R_scope.

(** A real matrix as a matrix of finite numbers. *)
Definition inj (m : matrix R) : matrix X := Mat (map (map Fin) (mrows m)) (mcols m).

(** Extremes of column [j]. *)
Definition is_col_min (m : matrix R) (j : nat) (lo : R) : Prop :=
  (exists i, (i < nrows m)%nat /\ entry m i j = lo) /\ forall i, (i < nrows m)%nat -> lo <= entry m i j.
Definition is_col_max (m : matrix R) (j : nat) (hi : R) : Prop :=
  (exists i, (i < nrows m)%nat /\ entry m i j = hi) /\ forall i, (i < nrows m)%nat -> entry m i j <= hi.

(** Column [j] takes two different values. *)
Definition varies (m : matrix R) (j : nat) : Prop :=
  exists i i', (i < nrows m)%nat /\ (i' < nrows m)%nat /\ entry m i j <> entry m i' j.

(** Within the range of [f64]. *)
Definition in_f64_range (m : matrix R) : Prop :=
  forall i j, (i < nrows m)%nat -> (j < mcols m)%nat -> - f64_max_R <= entry m i j <= f64_max_R.

(** Mean and sample variance of column [j]. *)
Definition cmean (m : matrix R) (j : nat) : R := sumR (nrows m) (fun i => entry m i j) / INR (nrows m).
Definition csvar (m : matrix R) (j : nat) : R :=
  sumR (nrows m) (fun i => (entry m i j - cmean m j) ^ 2) / (INR (nrows m) - 1).

(** Euclidean length of a row. *)
Definition row_len (r : list R) : R := sqrt (sumR (length r) (fun i => (nth i r 0) ^ 2)).

(** All entries of a matrix of extended numbers are finite / some is not. *)
Definition all_finite (m : matrix X) : Prop := exists m', m = inj m'.
Definition some_nonfinite (m : matrix X) : Prop :=
  Exists (fun r => Exists (fun x => xfinite x = false) r) (mrows m).


(** Scalers whose factors are finite and non-zero. *)
Definition usable (sc : MinMaxScaler X) : Prop :=
  length (const_factors sc) = length (scale_factors sc) /\
  Forall (fun s => exists r, s = Fin r /\ r <> 0) (scale_factors sc) /\
  Forall (fun c => exists r, c = Fin r) (const_factors sc).

(** Standardizers with finite means, positive finite variances and non-zero deviation. *)
Definition std_usable (st : Standardizer X) : Prop :=
  length (std_variances st) = length (std_means st) /\
  Forall (fun v => exists r, v = Fin r /\ 0 < r) (std_variances st) /\
  Forall (fun v => exists r, v = Fin r) (std_means st) /\
  (exists r, std_mean st = Fin r) /\ (exists r, std_stdev st = Fin r /\ r <> 0).

