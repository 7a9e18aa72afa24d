(** * Model of [src/data/transforms/minmax.rs], [standardize.rs], [normalize.rs] *)
From Coq Require Import List Arith Bool.
From Verif Require Import Base Num Linalg.
Import ListNotations.
Local Open Scope num_scope.

Section Transforms.
  Context {F : Type} {N : Num F}.

  (** ** minmax.rs *)

  (** minmax.rs lines 90-105: one row updates the running minima and maxima; a non-finite value
      returns [Err] at once. *)
  Fixpoint minmax_row (row : list F) (mm : list (F * F)) : res (list (F * F)) :=
    match row, mm with
    | x :: row', (mn, mx) :: mm' =>
        if negb (nfinite x) then Err InvalidData
        else
          let mn' := if x <? mn then x else mn in
          let mx' := if x >? mx then x else mx in
          let? rest := minmax_row row' mm' in Ok ((mn', mx') :: rest)
    | _, _ => Ok mm
    end.
  (** minmax.rs lines 89-106. *)
  Fixpoint minmax_rows (rows : list (list F)) (mm : list (F * F)) : res (list (F * F)) :=
    match rows with
    | [] => Ok mm
    | r :: rows' => let? mm' := minmax_row r mm in minmax_rows rows' mm'
    end.

  (** minmax.rs lines 143-148. *)
  Record MinMaxScaler := { scale_factors : list F; const_factors : list F }.

  (** minmax.rs lines 112-120. *)
  Definition minmax_scale (smin smax : F) (xy : F * F) : res F :=
    let s := (smax - smin) / (snd xy - fst xy) in
    if nfinite s then Ok s else Err InvalidData.

  (** minmax.rs lines 83-133: [MinMaxFitter { scaled_min, scaled_max }.fit(inputs)]. *)
  Definition minmax_fit (smin smax : F) (inputs : matrix F) : res MinMaxScaler :=
    let features := mcols inputs in
    let? mm := minmax_rows (mrows inputs) (repeat (nmaxv, - nmaxv) features) in
    let? scales := rmap (minmax_scale smin smax) mm in
    let consts := map2 (fun xy s => smax - snd xy * s) mm scales in
    Ok {| scale_factors := scales; const_factors := consts |}.

  (** minmax.rs lines 153-169. *)
  Definition minmax_transform (sc : MinMaxScaler) (inputs : matrix F) : res (matrix F) :=
    if negb (length (scale_factors sc) =? mcols inputs)%nat then Err InvalidData
    else Ok (Mat (map (fun row => map2 nadd (map2 nmul row (scale_factors sc)) (const_factors sc))
                      (mrows inputs)) (mcols inputs)).

  (** minmax.rs lines 174-188.  The inner loop over [i in 0..features] is a pointwise map
      (all three lists have [features] elements, by construction of the scaler). *)
  Definition minmax_inv (sc : MinMaxScaler) (inputs : matrix F) : res (matrix F) :=
    if negb (mcols inputs =? length (scale_factors sc))%nat then Err InvalidData
    else Ok (Mat (map (fun row => map2 ndiv (map2 nsub row (const_factors sc)) (scale_factors sc))
                      (mrows inputs)) (mcols inputs)).

  (** ** standardize.rs *)

  (** standardize.rs lines 116-125. *)
  Record Standardizer := { std_means : list F; std_variances : list F; std_mean : F; std_stdev : F }.

  (** standardize.rs lines 83-106.  [Matrix::variance] cannot fail here (there are two rows). *)
  Definition standardizer_fit (smean sstdev : F) (inputs : matrix F) : res Standardizer :=
    if (nrows inputs <=? 1)%nat then Err InvalidData
    else
      let mean := col_mean inputs in
      let variance := col_var inputs in
      if existsb (fun x => negb (nfinite x)) mean then Err InvalidData
      else Ok {| std_means := mean; std_variances := variance; std_mean := smean; std_stdev := sstdev |}.

  (** standardize.rs lines 129-143. *)
  Definition standardizer_transform (st : Standardizer) (inputs : matrix F) : res (matrix F) :=
    if negb (length (std_means st) =? mcols inputs)%nat then Err InvalidData
    else Ok (Mat (map (fun row =>
                         map2 (fun x y => x * std_stdev st / nsqrt y + std_mean st)
                              (map2 nsub row (std_means st)) (std_variances st))
                      (mrows inputs)) (mcols inputs)).

  (** standardize.rs lines 147-164. *)
  Definition standardizer_inv (st : Standardizer) (inputs : matrix F) : res (matrix F) :=
    if negb (mcols inputs =? length (std_means st))%nat then Err InvalidData
    else Ok (Mat (map (fun row =>
                         map2 nadd
                           (map2 (fun x y => (x - std_mean st) * nsqrt y / std_stdev st) row (std_variances st))
                           (std_means st))
                      (mrows inputs)) (mcols inputs)).

  (** ** normalize.rs *)

  (** normalize.rs lines 93-101: one row; [norm] is the configured [MatrixNorm] of the row. *)
  Definition normalize_row (norm : list F -> F) (row : list F) : res (list F) :=
    let d := norm row in
    if negb (nfinite d) then Err InvalidData
    else if negb (d =? nzero) then Ok (map (fun x => x / d) row)
    else Ok row.

  (** normalize.rs lines 90-104.  All norms are taken before any row is changed (line 91); as each
      row is only compared with its own norm this is the row-wise map. *)
  Definition normalize (norm : list F -> F) (inputs : matrix F) : res (matrix F) :=
    let? rows := rmap (normalize_row norm) (mrows inputs) in
    Ok (Mat rows (mcols inputs)).
End Transforms.
Arguments MinMaxScaler : clear implicits.
Arguments Standardizer : clear implicits.
