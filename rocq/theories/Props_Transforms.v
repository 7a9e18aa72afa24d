(** * C13-C18: data transforms ([src/data/transforms/]) *)
From Coq Require Import List Arith Reals Lra Lia Bool ZArith.
From Verif Require Import Base Num NumX NumF Linalg Spec_Calc Model_Transforms Spec_Transforms
  Proof_MinMax Proof_Standardize Proof_TransformsEx.
Import ListNotations.
Local Open Scope R_scope.

(** C13: the scaled training data fills exactly the requested range, column by column, by the
    affine map through (lo, smin) and (hi, smax); order is preserved. *)
Theorem C13_minmax_range : forall (smin smax : R) (m : matrix R),
  smin < smax -> mwf m -> in_f64_range m -> (0 < nrows m)%nat ->
  (forall j, (j < mcols m)%nat -> varies m j) ->
  exists sc m', minmax_fit (Fin smin) (Fin smax) (inj m) = Ok sc /\
    minmax_transform sc (inj m) = Ok (inj m') /\ mwf m' /\ nrows m' = nrows m /\ mcols m' = mcols m /\
    forall j lo hi, (j < mcols m)%nat -> is_col_min m j lo -> is_col_max m j hi ->
      is_col_min m' j smin /\ is_col_max m' j smax /\
      forall i, (i < nrows m)%nat ->
        entry m' i j = smin + (entry m i j - lo) * ((smax - smin) / (hi - lo)) /\
        smin <= entry m' i j <= smax /\
        (entry m i j = lo -> entry m' i j = smin) /\ (entry m i j = hi -> entry m' i j = smax) /\
        (forall i', (i' < nrows m)%nat -> (entry m i j < entry m i' j <-> entry m' i j < entry m' i' j)).
Proof. exact minmax_range. Qed.
Print Assumptions C13_minmax_range.

Example C13_ex : mwf exm /\ in_f64_range exm /\ (0 < nrows exm)%nat /\
  (forall j, (j < mcols exm)%nat -> varies exm j) /\ is_col_min exm 0 1 /\ is_col_max exm 0 3.
Proof. exact exm_ok. Qed.

(** In binary64 the range is only met up to rounding: fitting the column (-4.0, -0.1) for the range
    0..1 sends -4.0 below 0. *)
Theorem C13_refuted_binary64_rounding :
  exists sc out, minmax_fit (F := B64) nzero nonev (Mat [[b64_of_Z (-4)]; [b64_dec (-1) 1]] 1) = Ok sc /\
    minmax_transform sc (Mat [[b64_of_Z (-4)]; [b64_dec (-1) 1]] 1) = Ok out /\
    nltb (nth 0 (nth 0 (mrows out) []) nzero) nzero = true.
Proof. exact b64_rounding. Qed.
Print Assumptions C13_refuted_binary64_rounding.

(** When the spread of a column overflows, the fit succeeds with scale zero and the transformed
    column is constant. *)
Theorem C13_refuted_binary64_overflow :
  exists sc out, minmax_fit (F := B64) nzero nonev (Mat [[nopp nmaxv]; [nmaxv]] 1) = Ok sc /\
    minmax_transform sc (Mat [[nopp nmaxv]; [nmaxv]] 1) = Ok out /\
    (neqb (nth 0 (nth 0 (mrows out) []) nzero) nonev && neqb (nth 0 (nth 1 (mrows out) []) nzero) nonev)%bool = true.
Proof. exact b64_overflow. Qed.
Print Assumptions C13_refuted_binary64_overflow.

(** C14: inverse. *)
Theorem C14_minmax_inverse : forall (sc : MinMaxScaler X) (m : matrix X), usable sc -> mwf m ->
  (mcols m <> length (scale_factors sc) ->
     minmax_transform sc m = Err InvalidData /\ minmax_inv sc m = Err InvalidData) /\
  (mcols m = length (scale_factors sc) ->
     (exists t, minmax_transform sc m = Ok t /\ minmax_inv sc t = Ok m) /\
     (exists t, minmax_inv sc m = Ok t /\ minmax_transform sc t = Ok m)).
Proof. exact minmax_inverse. Qed.
Print Assumptions C14_minmax_inverse.

(** Every scaler fitted to finite data with a range of non-zero width is usable. *)
Theorem C14_fitted_scalers_are_usable : forall (smin smax : R) (m : matrix R) (sc : MinMaxScaler X),
  smin <> smax -> mwf m -> in_f64_range m -> (0 < nrows m)%nat ->
  minmax_fit (Fin smin) (Fin smax) (inj m) = Ok sc -> usable sc /\ length (scale_factors sc) = mcols m.
Proof. exact minmax_fit_usable. Qed.
Print Assumptions C14_fitted_scalers_are_usable.

Example C14_ex : (exists sc, minmax_fit (Fin 0) (Fin 1) (inj exm) = Ok sc /\ usable sc /\ length (scale_factors sc) = 2%nat) /\
  usable {| scale_factors := [Fin 2; Fin (-3)]; const_factors := [Fin 0; Fin 7] |} /\
  mwf (inj exm) /\ mcols (inj exm) = 2%nat /\ mwf (Mat [[PInf; Fin 1]] 2).
Proof. split; [exact exm_scaler|]. split; [exact usable_by_hand|]. repeat constructor. Qed.

(** C15: rejection (over numbers with infinities and NaN). *)
Theorem C15_minmax_rejects : forall (smin smax : X) (inputs : matrix X),
  mwf inputs -> (0 < nrows inputs)%nat -> (0 < mcols inputs)%nat ->
  (forall m, inputs = inj m -> in_f64_range m) ->
  let bad := xfinite smin = false \/ xfinite smax = false \/ some_nonfinite inputs \/
             exists m j, inputs = inj m /\ (j < mcols m)%nat /\ ~ varies m j in
  (bad -> minmax_fit smin smax inputs = Err InvalidData) /\
  (~ bad -> exists sc, minmax_fit smin smax inputs = Ok sc /\
     forall m, mwf m -> mcols m = mcols inputs ->
       exists m', minmax_transform sc (inj m) = Ok (inj m') /\ mwf m' /\ nrows m' = nrows m /\ mcols m' = mcols m).
Proof. exact minmax_rejects. Qed.
Print Assumptions C15_minmax_rejects.

Example C15_ex_nan : minmax_fit (F := X) (Fin 0) (Fin 1) (Mat [[Fin 1]; [Fin 2]; [NaN]] 1) = Err InvalidData
  /\ some_nonfinite (Mat [[Fin 1]; [Fin 2]; [NaN]] 1).
Proof. exact ex_nan. Qed.

(** C16: standardised data has the requested mean and variance. *)
Theorem C16_standardizer_moments : forall (smean sstd : R) (m : matrix R),
  mwf m -> (2 <= nrows m)%nat -> (forall j, (j < mcols m)%nat -> varies m j) ->
  exists st m', standardizer_fit (Fin smean) (Fin sstd) (inj m) = Ok st /\
    standardizer_transform st (inj m) = Ok (inj m') /\ mwf m' /\ nrows m' = nrows m /\ mcols m' = mcols m /\
    forall j, (j < mcols m)%nat -> cmean m' j = smean /\ csvar m' j = sstd ^ 2 /\
      forall i, (i < nrows m)%nat ->
        entry m' i j = (entry m i j - cmean m j) * sstd / sqrt (csvar m j) + smean.
Proof. exact standardize_spec. Qed.
Print Assumptions C16_standardizer_moments.

Theorem C16_standardizer_rejects : forall (smean sstd : X) (inputs : matrix X), mwf inputs ->
  ((nrows inputs < 2)%nat \/ some_nonfinite inputs -> standardizer_fit smean sstd inputs = Err InvalidData) /\
  ((2 <= nrows inputs)%nat -> all_finite inputs -> exists st, standardizer_fit smean sstd inputs = Ok st).
Proof. exact std_fit_rejects. Qed.
Print Assumptions C16_standardizer_rejects.

Example C16_ex : mwf exm /\ (2 <= nrows exm)%nat /\ (forall j, (j < mcols exm)%nat -> varies exm j).
Proof. exact exm_ok2. Qed.

(** C17: inverse, for standardizers with positive finite variances. *)
Theorem C17_standardizer_inverse : forall (st : Standardizer X) (m : matrix X), std_usable st -> mwf m ->
  (mcols m <> length (std_means st) ->
     standardizer_transform st m = Err InvalidData /\ standardizer_inv st m = Err InvalidData) /\
  (mcols m = length (std_means st) ->
     exists t, standardizer_transform st m = Ok t /\ standardizer_inv st t = Ok m).
Proof. exact std_inverse. Qed.
Print Assumptions C17_standardizer_inverse.

Theorem C17_fitted_standardizers_are_usable : forall (smean sstd : R) (m : matrix R) (st : Standardizer X),
  sstd <> 0 -> (2 <= nrows m)%nat -> (forall j, (j < mcols m)%nat -> varies m j) ->
  standardizer_fit (Fin smean) (Fin sstd) (inj m) = Ok st -> std_usable st /\ length (std_means st) = mcols m.
Proof. exact std_fit_usable. Qed.
Print Assumptions C17_fitted_standardizers_are_usable.

Example C17_ex : exists st, standardizer_fit (Fin 3) (Fin 2) (inj exm) = Ok st /\ std_usable st /\ length (std_means st) = 2%nat.
Proof. exact exm_standardizer. Qed.

(** C17, refuted part: a constant column is accepted by [fit] and turned into NaN. *)
Theorem C17_refuted_constant_column : forall (smean sstd : R) (m : matrix R) (j : nat),
  mwf m -> (2 <= nrows m)%nat -> (j < mcols m)%nat -> ~ varies m j ->
  exists st out, standardizer_fit (Fin smean) (Fin sstd) (inj m) = Ok st /\
    standardizer_transform st (inj m) = Ok out /\
    forall i, (i < nrows m)%nat -> nth j (nth i (mrows out) []) (Fin 0) = NaN.
Proof. exact std_constant_nan. Qed.
Print Assumptions C17_refuted_constant_column.

Example C17_ex_constant : let m := Mat [[1; 5]; [2; 5]] 2 in
  mwf m /\ (2 <= nrows m)%nat /\ (1 < mcols m)%nat /\ ~ varies m 1.
Proof. exact ex_constant. Qed.

(** C18: normalisation to unit Euclidean length. *)
Theorem C18_normalizer_unit_rows : forall m : matrix R,
  exists m', normalize norm2 (inj m) = Ok (inj m') /\ nrows m' = nrows m /\ mcols m' = mcols m /\
    normalize norm2 (inj m') = Ok (inj m') /\
    forall i r, nth_error (mrows m) i = Some r -> exists r', nth_error (mrows m') i = Some r' /\
      (Forall (fun x => x = 0) r -> r' = r) /\
      (~ Forall (fun x => x = 0) r -> row_len r' = 1 /\ 0 < row_len r /\ map (Rmult (row_len r)) r' = r).
Proof. exact normalize_spec. Qed.
Print Assumptions C18_normalizer_unit_rows.

Theorem C18_normalizer_rejects : forall m : matrix X,
  some_nonfinite m -> normalize norm2 m = Err InvalidData.
Proof. exact normalize_bad. Qed.
Print Assumptions C18_normalizer_rejects.

(** Finite rows whose norm overflows binary64 are rejected too. *)
Example C18_ex_overflow : normalize (F := B64) norm2 (Mat [[nmaxv; nonev]] 2) = Err InvalidData.
Proof. vm_compute. reflexivity. Qed.
