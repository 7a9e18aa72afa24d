(** * C115: the data transforms in binary64 ([src/data/transforms/]) *)
From Coq Require Import List Arith Bool Reals ZArith.
From Flocq Require Import Core BinarySingleNaN.
From Verif Require Import Base Num NumF Linalg Spec_Calc Spec_B64 Model_Transforms Spec_Transforms Spec_TransformsB64 Proof_TransformsB64 Proof_NormB64 Proof_TransformsB64Ex.
Import ListNotations.
Local Open Scope R_scope.

(** C115: every scaled entry is finite, close to the exact value, and within the target range up to rounding. *)
Theorem C115_minmax_range : forall (smin smax : B64) (m : matrix B64), is_finite smin = true -> is_finite smax = true -> B2R smin <= B2R smax ->
  mwf m -> (0 < nrows m)%nat -> scalable (B2R smin) (B2R smax) m -> (forall j, (j < mcols m)%nat -> varies (real_mat m) j) ->
  exists sc out, minmax_fit smin smax m = Ok sc /\ minmax_transform sc m = Ok out /\ mwf out /\ nrows out = nrows m /\ mcols out = mcols m /\
    forall i j lo hi, (i < nrows m)%nat -> (j < mcols m)%nat -> is_col_min (real_mat m) j lo -> is_col_max (real_mat m) j hi ->
      is_finite (cell out i j) = true /\
      Rabs (B2R (cell out i j) - stretch (B2R smin) (B2R smax) lo hi (B2R (cell m i j))) <= stretch_slack (B2R smin) (B2R smax) lo hi /\
      B2R smin - stretch_slack (B2R smin) (B2R smax) lo hi <= B2R (cell out i j) <= B2R smax + stretch_slack (B2R smin) (B2R smax) lo hi.
Proof. exact minmax_b64. Qed.
Print Assumptions C115_minmax_range.

(** Undoing the scaling gives the data back up to rounding. *)
Theorem C115_minmax_round_trip : forall (smin smax : B64) (m : matrix B64), is_finite smin = true -> is_finite smax = true -> B2R smin <= B2R smax ->
  mwf m -> (0 < nrows m)%nat -> scalable (B2R smin) (B2R smax) m -> recoverable (B2R smin) (B2R smax) m -> (forall j, (j < mcols m)%nat -> varies (real_mat m) j) ->
  exists sc out back, minmax_fit smin smax m = Ok sc /\ minmax_transform sc m = Ok out /\ minmax_inv sc out = Ok back /\ nrows back = nrows m /\ mcols back = mcols m /\
    forall i j lo hi, (i < nrows m)%nat -> (j < mcols m)%nat -> is_col_min (real_mat m) j lo -> is_col_max (real_mat m) j hi ->
      is_finite (cell back i j) = true /\ Rabs (B2R (cell back i j) - B2R (cell m i j)) <= back_slack (B2R smin) (B2R smax) lo hi.
Proof. exact minmax_back_b64. Qed.
Print Assumptions C115_minmax_round_trip.

Example C115_ex_scale : let m := marks in let a := b64_of_Z 0 in let b := b64_of_Z 1 in
  is_finite a = true /\ is_finite b = true /\ B2R a <= B2R b /\ mwf m /\ (0 < nrows m)%nat /\ scalable (B2R a) (B2R b) m /\ recoverable (B2R a) (B2R b) m /\
  (forall j, (j < mcols m)%nat -> varies (real_mat m) j) /\ is_col_min (real_mat m) 0 1 /\ is_col_max (real_mat m) 0 5.
Proof. exact marks_ok. Qed.

(** Rounding never reverses an order: in a column, a larger input never gets a smaller (finite) output, also for data
    the scaler was not fitted on. *)
Theorem C115_minmax_order : forall (smin smax : B64) (m n out : matrix B64) sc, B2R smin <= B2R smax -> minmax_fit smin smax m = Ok sc ->
  mwf n -> minmax_transform sc n = Ok out -> forall i i' j, (i < nrows n)%nat -> (i' < nrows n)%nat -> (j < mcols n)%nat ->
  is_finite (cell out i j) = true -> is_finite (cell out i' j) = true ->
  B2R (cell n i j) <= B2R (cell n i' j) -> B2R (cell out i j) <= B2R (cell out i' j).
Proof. exact minmax_order_b64. Qed.
Print Assumptions C115_minmax_order.

Theorem C115_standardizer_order : forall (smean sstd : B64) (m n out : matrix B64) st, 0 <= B2R sstd -> standardizer_fit smean sstd m = Ok st ->
  mwf n -> standardizer_transform st n = Ok out -> forall i i' j, (i < nrows n)%nat -> (i' < nrows n)%nat -> (j < mcols n)%nat ->
  is_finite (cell out i j) = true -> is_finite (cell out i' j) = true ->
  B2R (cell n i j) <= B2R (cell n i' j) -> B2R (cell out i j) <= B2R (cell out i' j).
Proof. exact std_order_b64. Qed.
Print Assumptions C115_standardizer_order.

Example C115_ex_order : exists sc out st out', minmax_fit (b64_of_Z 0) (b64_of_Z 1) marks = Ok sc /\ minmax_transform sc marks = Ok out /\
  standardizer_fit (b64_of_Z 0) (b64_of_Z 1) marks = Ok st /\ standardizer_transform st marks = Ok out' /\
  is_finite (cell out 0 0) = true /\ is_finite (cell out 1 0) = true /\ is_finite (cell out' 0 0) = true /\ is_finite (cell out' 1 0) = true /\
  B2R (cell marks 0 0) <= B2R (cell marks 1 0).
Proof. exact marks_order. Qed.

(** A normalised row has length 1 up to rounding, and its entries are the exact ones up to rounding. *)
Theorem C115_normalizer_length : forall (m : matrix B64), mwf m -> (forall r, In r (mrows m) -> measurable r) ->
  exists out, normalize norm2 m = Ok out /\ mwf out /\ nrows out = nrows m /\ mcols out = mcols m /\
    forall i, (i < nrows m)%nat -> let L := row_len (real_vec (nth i (mrows m) [])) in
      Rabs (row_len (real_vec (nth i (mrows out) [])) - 1) <= (2 * INR (mcols m) + 12) * u64 /\
      forall j, (j < mcols m)%nat -> is_finite (cell out i j) = true /\
        Rabs (B2R (cell out i j) - B2R (cell m i j) / L) <= (2 * INR (mcols m) + 11) * u64 * Rabs (B2R (cell m i j) / L) + h64.
Proof. exact normalize_b64. Qed.
Print Assumptions C115_normalizer_length.

Example C115_ex_row : measurable [b64_of_Z 3; b64_of_Z 4].
Proof. exact three_four. Qed.

(** The restriction on rows is needed: the squares of small entries underflow and a row of length [2^-600] is left as it
    is; the squares of large ones overflow and a row of length [2^600] is refused. *)
Theorem C115_tiny_and_huge_rows :
  normalize norm2 (Mat [[b64_bin 1 (-600)]] 1) = Ok (Mat [[b64_bin 1 (-600)]] 1) /\ row_len (real_vec [b64_bin 1 (-600)]) = bpow radix2 (-600) /\
  normalize norm2 (Mat [[b64_bin 1 600]] 1) = Err InvalidData /\ row_len (real_vec [b64_bin 1 600]) = bpow radix2 600.
Proof. exact tiny_and_huge. Qed.
Print Assumptions C115_tiny_and_huge_rows.
