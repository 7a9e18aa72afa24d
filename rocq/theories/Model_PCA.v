(** * Model of [src/learning/pca.rs] *)
From Coq Require Import List Arith Bool.
From Verif Require Import Base Num Linalg Model_NNet.
Import ListNotations.
Local Open Scope num_scope.

Section PCA.
  Context {F : Type} {N : Num F}.

  (** pca.rs lines 37-51. *)
  Record PCA := {
    pca_n : option nat;
    pca_center : bool;
    pca_n_features : option nat;
    pca_centers : option (list F);
    pca_components : option (matrix F);
    pca_inv : bool }.

  (** pca.rs lines 68-80. *)
  Definition pca_new (n : nat) (center : bool) : PCA :=
    {| pca_n := Some n; pca_center := center; pca_n_features := None; pca_centers := None;
       pca_components := None; pca_inv := false |}.
  (** pca.rs lines 103-117. *)
  Definition pca_default : PCA :=
    {| pca_n := None; pca_center := true; pca_n_features := None; pca_centers := None;
       pca_components := None; pca_inv := false |}.
  (** pca.rs lines 83-88, [components]. *)
  Definition pca_get_components (self : PCA) : res (matrix F) :=
    match pca_components self with None => Err UntrainedModel | Some rot => Ok rot end.

  (** pca.rs lines 200-204.  The unchecked reads are in bounds when [centers] has at least as many entries
      as [inputs] has columns; otherwise (undefined behaviour) the model panics. *)
  Definition centering (inputs : matrix F) (centers : list F) : res (matrix F) :=
    rassert (mcols inputs <=? length centers)%nat
      (Ok (Mat (map (fun r => vsub r centers) (mrows inputs)) (mcols inputs))).

  (** pca.rs lines 122-158. *)
  Definition pca_predict (self : PCA) (inputs : matrix F) : res (matrix F) :=
    match pca_n_features self with
    | None => Err UntrainedModel
    | Some f =>
        if negb (f =? mcols inputs)%nat then Err InvalidData
        else
          match pca_components self with
          | None => Err UntrainedModel
          | Some comp =>
              if pca_center self then
                match pca_centers self with
                | None => Err UntrainedModel
                | Some centers =>
                    let? data := centering inputs centers in
                    if pca_inv self then rmat_mul data (transpose comp) else rmat_mul data comp
                end
              else if pca_inv self then rmat_mul inputs (transpose comp) else rmat_mul inputs comp
          end
    end.

  (** [Matrix::select_cols] of [rulinalg] (pca.rs line 193): panics when an index is out of range. *)
  Definition select_cols (m : matrix F) (idx : list nat) : res (matrix F) :=
    rassert (forallb (fun j => j <? mcols m)%nat idx)
      (Ok (Mat (map (fun r => map (fun j => nth j r nzero) idx) (mrows m)) (length idx))).

  (** pca.rs lines 160-196.  [svd] is the third component (V) of [Matrix::svd]; any failure is unwrapped,
      that is, a panic.  The fields written before a panic keep their new values. *)
  Definition pca_train (svd : matrix F -> option (matrix F)) (self : PCA) (inputs : matrix F) : PCA * res unit :=
    if match pca_n self with None => false | Some n => (mcols inputs <? n)%nat end then (self, Err InvalidData)
    else
      let '(self1, rdata) :=
        if pca_center self then
          let centers := col_mean inputs in
          ({| pca_n := pca_n self; pca_center := pca_center self; pca_n_features := pca_n_features self;
              pca_centers := Some centers; pca_components := pca_components self; pca_inv := pca_inv self |},
           centering inputs centers)
        else (self, Ok inputs) in
      match (let? data := rdata in match svd data with Some v => Ok v | None => Panic end) with
      | Ok v0 =>
          let wide := (nrows inputs <? mcols inputs)%nat in
          let v := if wide then transpose v0 else v0 in
          let inv := if wide then true else pca_inv self1 in
          match (match pca_n self1 with Some c => select_cols v (seq 0 c) | None => Ok v end) with
          | Ok comps =>
              ({| pca_n := pca_n self1; pca_center := pca_center self1; pca_n_features := Some (mcols inputs);
                  pca_centers := pca_centers self1; pca_components := Some comps; pca_inv := inv |}, Ok tt)
          | Err k => (self1, Err k)
          | Panic =>
              ({| pca_n := pca_n self1; pca_center := pca_center self1; pca_n_features := pca_n_features self1;
                  pca_centers := pca_centers self1; pca_components := pca_components self1; pca_inv := inv |}, Panic)
          end
      | Err k => (self1, Err k)
      | Panic => (self1, Panic)
      end.
End PCA.
Arguments PCA : clear implicits.
