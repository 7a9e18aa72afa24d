(** * Vectors and matrices

    The crate uses [rulinalg] (git revision 1ed8b937, see Cargo.toml), whose source is not part of
    /repo.  What the models need of it is defined here from its documented behaviour: a vector is a
    list, a matrix is the list of its rows together with its number of columns (so that a matrix
    with no rows still has a width, as in [rulinalg]).  Sums are taken left to right; [rulinalg]
    unrolls some of them, which only matters for rounding. *)
From Coq Require Import List Arith Bool.
From Verif Require Import Base Num.
Import ListNotations.

(** [zip] followed by [map] on iterators (Rust standard library): stops at the end of the shorter list. *)
Fixpoint map2 {A B C} (f : A -> B -> C) (xs : list A) (ys : list B) : list C :=
  match xs, ys with
  | x :: xs', y :: ys' => f x y :: map2 f xs' ys'
  | _, _ => []
  end.

(** [rulinalg::matrix::Matrix<T>]: its rows and its number of columns. *)
Record matrix (F : Type) := Mat { mrows : list (list F); mcols : nat }.
Arguments Mat {F}. Arguments mrows {F}. Arguments mcols {F}.

(** Every row has [mcols] entries: the invariant of [rulinalg]'s row-major storage. *)
Definition mwf {F} (m : matrix F) : Prop := Forall (fun r => length r = mcols m) (mrows m).

(** [rulinalg]: [Matrix::rows]. *)
Definition nrows {F} (m : matrix F) : nat := length (mrows m).

Section Ops.
  Context {F : Type} {N : Num F}.

  (** [rulinalg]: [Vector::sum]. *)
  Definition vsum (v : list F) : F := fold_left nadd v nzero.
  (** [rulinalg]: [Vector::dot] and [utils::dot]. *)
  Definition dot (u v : list F) : F := vsum (map2 nmul u v).
  (** [rulinalg]: [Vector::norm(Euclidean)]. *)
  Definition norm2 (v : list F) : F := nsqrt (dot v v).

  (** [rulinalg]: [Vector + Vector] (the size assertion is modelled by callers). *)
  Definition vadd := map2 (A:=F) (B:=F) (C:=F) nadd.
  (** [rulinalg]: [Vector - Vector]. *)
  Definition vsub := map2 (A:=F) (B:=F) (C:=F) nsub.
  (** [rulinalg]: [Vector::elemul]. *)
  Definition velemul := map2 (A:=F) (B:=F) (C:=F) nmul.
  (** [rulinalg]: [Vector * scalar]. *)
  Definition vscale (c : F) (v : list F) : list F := map (fun x => nmul x c) v.

  (** [rulinalg]: the condition of the size assertions of [Matrix + Matrix] and the like. *)
  Definition same_shape (a b : matrix F) : bool :=
    (nrows a =? nrows b) && (mcols a =? mcols b).

  (** Entrywise binary operations; [rulinalg] asserts equal shapes, which callers model. *)
  Definition mzip (f : F -> F -> F) (a b : matrix F) : matrix F :=
    Mat (map2 (map2 f) (mrows a) (mrows b)) (mcols a).
  (** [rulinalg]: [Matrix::apply]. *)
  Definition mmap (f : F -> F) (a : matrix F) : matrix F := Mat (map (map f) (mrows a)) (mcols a).

  (** [rulinalg]: [Matrix::sum]. *)
  Definition msum (m : matrix F) : F := vsum (map vsum (mrows m)).

  (** [rulinalg]: [&Matrix * &Vector] (shapes asserted by callers). *)
  Definition mat_vec (m : matrix F) (v : list F) : list F := map (fun r => dot r v) (mrows m).
  (** [rulinalg]: [Matrix::col]. *)
  Definition col (m : matrix F) (j : nat) : list F := map (fun r => nth j r nzero) (mrows m).
  (** [rulinalg]: [Matrix::transpose]. *)
  Definition transpose (m : matrix F) : matrix F :=
    Mat (map (col m) (seq 0 (mcols m))) (nrows m).
  (** [rulinalg]: [Matrix * Matrix]. *)
  Definition mat_mul (a b : matrix F) : matrix F :=
    Mat (map (fun r => map (fun j => dot r (col b j)) (seq 0 (mcols b))) (mrows a)) (mcols b).

  (** [rulinalg]: [Matrix::mean(Axes::Row)]: the mean of each column (0/0 without rows). *)
  Definition col_mean (m : matrix F) : list F :=
    map (fun j => ndiv (vsum (col m j)) (nofnat (nrows m))) (seq 0 (mcols m)).

  (** [rulinalg]: [Matrix::variance(Axes::Row)]: sample variance of each column; callers model the error for
      fewer than two rows. *)
  Definition col_var (m : matrix F) : list F :=
    map (fun j =>
           let c := col m j in
           let mu := ndiv (vsum c) (nofnat (nrows m)) in
           ndiv (vsum (map (fun x => nmul (nsub x mu) (nsub x mu)) c)) (nofnat (nrows m - 1)))
        (seq 0 (mcols m)).

  (** [rulinalg]: [utils::argmax] / [argmin]: first index of an extremal element, scanning with strict
      comparisons from element 0; [assert!] non-empty. *)
  Fixpoint argbest (better : F -> F -> bool) (l : list F) (i bi : nat) (bv : F) : nat * F :=
    match l with
    | [] => (bi, bv)
    | x :: l' => if better x bv then argbest better l' (S i) i x else argbest better l' (S i) bi bv
    end.
  (** [rulinalg]: [utils::argmax], [Vector::argmax]. *)
  Definition argmax (l : list F) : res (nat * F) :=
    match l with [] => Panic | x :: l' => Ok (argbest (fun v m => nltb m v) l' 1 0 x) end.
  (** [rulinalg]: [utils::argmin]. *)
  Definition argmin (l : list F) : res (nat * F) :=
    match l with [] => Panic | x :: l' => Ok (argbest (fun v m => nltb v m) l' 1 0 x) end.

  (** [rulinalg]: [Matrix::select_rows]. *)
  Fixpoint rows_opt {A} (rows : list A) (idx : list nat) : option (list A) :=
    match idx with
    | [] => Some []
    | i :: idx' =>
        match nth_error rows i, rows_opt rows idx' with
        | Some r, Some rs => Some (r :: rs)
        | _, _ => None
        end
    end.
End Ops.
