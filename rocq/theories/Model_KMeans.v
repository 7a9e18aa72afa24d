(** * Model of [src/learning/k_means.rs] *)
From Coq Require Import List Arith Bool.
From Verif Require Import Base Num Linalg.
Import ListNotations.

(** [Matrix::select_rows] of [rulinalg] (k_means.rs lines 222, 289, 313): panics when an index is out of range. *)
Definition select_rows {F} (m : matrix F) (idx : list nat) : res (matrix F) :=
  match rows_opt (mrows m) idx with Some rs => Ok (Mat rs (mcols m)) | None => Panic end.

Section KMeans.
  Context {F : Type} {N : Num F}.

  (** k_means.rs lines 68-77 ([init_algorithm] is an argument of [km_train]). *)
  Record KMeans := { km_iters : nat; km_k : nat; km_centroids : option (matrix F) }.

  (** k_means.rs lines 149-156 ([new], lines 126-133, is [km_new k 100] with k-means++). *)
  Definition km_new (k iters : nat) : KMeans := {| km_iters := iters; km_k := k; km_centroids := None |}.
  (** Assignment to [self.centroids] (k_means.rs lines 204, 226). *)
  Definition km_set (m : KMeans) (c : matrix F) : KMeans :=
    {| km_iters := km_iters m; km_k := km_k m; km_centroids := Some c |}.

  (** k_means.rs lines 252-253, one entry of [dist]: the sum of the squared differences of one centroid and
      the row. *)
  Definition sqdist (c x : list F) : F :=
    let d := vsub c x in vsum (velemul d d).

  (** k_means.rs lines 250-259, one row: the subtraction asserts equal widths, [argmin] a centroid. *)
  Definition closest (centroids : matrix F) (width : nat) (x : list F) : res (nat * F) :=
    rassert (mcols centroids =? width) (argmin (map (fun c => sqdist c x) (mrows centroids))).

  (** k_means.rs lines 244-262. *)
  Definition find_closest_centroids (centroids inputs : matrix F) : res (list nat * list F) :=
    let? ps := rmap (closest centroids (mcols inputs)) (mrows inputs) in
    Ok (map fst ps, map snd ps).

  (** k_means.rs lines 213-227.  [row_indexes] of class [c]: the positions holding [c], in order. *)
  Definition class_rows (classes : list nat) (c : nat) : list nat :=
    filter (fun i => nth i classes (S c) =? c) (seq 0 (length classes)).
  (** k_means.rs lines 213-227: the new centroids. *)
  Definition update_centroids (k : nat) (inputs : matrix F) (classes : list nat) : res (matrix F) :=
    let? rs := rmap (fun c => let? m := select_rows inputs (class_rows classes c) in Ok (col_mean m)) (seq 0 k) in
    Ok (Mat rs (mcols inputs)).

  (** k_means.rs lines 186-208; [init] is the initialiser's own answer. On an error the stored centroids stay. *)
  Definition init_centroids (m : KMeans) (inputs : matrix F) (init : res (matrix F)) : res (matrix F) :=
    if nrows inputs <? km_k m then Err InvalidData
    else
      let? c := init in
      if negb (nrows c =? km_k m) then Err InvalidState
      else if negb (mcols c =? mcols inputs) then Err InvalidState
      else Ok c.

  (** k_means.rs lines 97-107: the loop, from centroids [c] and previous cost [cost]. [tol] is the constant
      1e-14 of line 95. *)
  Fixpoint lloyd (tol : F) (k : nat) (inputs : matrix F) (iters : nat) (cost : F) (c : matrix F) : res (matrix F) :=
    match iters with
    | 0 => Ok c
    | S iters' =>
        let? (idx, ds) := find_closest_centroids c inputs in
        let? c' := update_centroids k inputs idx in
        let cost_i := vsum ds in
        if nltb (nabs (nsub cost cost_i)) tol then Ok c' else lloyd tol k inputs iters' cost_i c'
    end.

  (** k_means.rs lines 92-110. The second component is the returned value; the model is the one left behind. *)
  Definition km_train (tol : F) (init : res (matrix F)) (m : KMeans) (inputs : matrix F) : KMeans * res unit :=
    match init_centroids m inputs init with
    | Ok c0 =>
        match lloyd tol (km_k m) inputs (km_iters m) nzero c0 with
        | Ok c => (km_set m c, Ok tt)
        | Err e => (km_set m c0, Err e)
        | Panic => (km_set m c0, Panic)
        end
    | Err e => (m, Err e)
    | Panic => (m, Panic)
    end.

  (** k_means.rs lines 83-89. *)
  Definition km_predict (m : KMeans) (inputs : matrix F) : res (list nat) :=
    match km_centroids m with
    | Some c => let? (idx, _) := find_closest_centroids c inputs in Ok idx
    | None => Err UntrainedModel
    end.

  (** ** Initialisers *)

  (** k_means.rs lines 281-287, the [while] loop; it may go on for ever, so it has fuel: [None] is out of fuel. *)
  Fixpoint forgy_loop (fuel k n : nat) (choices : list nat) : Rnd (option (list nat)) :=
    if length choices <? k then
      match fuel with
      | 0 => RRet None
      | S fuel' =>
          let! r := gen_range n in
          if existsb (Nat.eqb r) choices then forgy_loop fuel' k n choices
          else forgy_loop fuel' k n (choices ++ [r])
      end
    else RRet (Some choices).
  (** k_means.rs lines 278-290. *)
  Definition forgy (fuel k : nat) (inputs : matrix F) : Rnd (option (res (matrix F))) :=
    let! o := forgy_loop fuel k (nrows inputs) [] in
    RRet (match o with Some choices => Some (select_rows inputs choices) | None => None end).

  (** k_means.rs lines 301-308. [get_unchecked_mut(idx)] out of range would be undefined behaviour: [RPanic]. *)
  Definition partition_loop (k n : nat) : Rnd (list (list nat)) :=
    rnd_for k (n - k) (fun i a =>
      let! idx := gen_range k in
      let! v := rnd_opt (nth_error a idx) in
      rnd_opt (upd a idx (v ++ [i]))) (map (fun i => [i]) (seq 0 k)).
  (** k_means.rs lines 298-319. *)
  Definition random_partition (k : nat) (inputs : matrix F) : Rnd (res (matrix F)) :=
    let! a := partition_loop k (nrows inputs) in
    RRet (let? rs := rmap (fun v => let? m := select_rows inputs v in Ok (col_mean m)) a in
          Ok (Mat rs (mcols inputs))).

  (** k_means.rs lines 364-381. [u] is the draw: [gen_range(0.0, sum)] panics unless [0 < sum] and answers
      [u * sum] for some [u] in [[0, 1)]. *)
  Fixpoint sample_loop (rand : F) (i : nat) (tempsum : F) (l : list F) : res nat :=
    match l with
    | [] => Panic
    | p :: l' => let t := nadd tempsum p in if nltb rand t then Ok i else sample_loop rand (S i) t l'
    end.
  (** k_means.rs lines 364-381. *)
  Definition sample_discretely (dist : list F) (u : F) : res nat :=
    rassert (0 <? length dist)
      (let sum := vsum dist in
       rassert (nltb nzero sum) (sample_loop (nmul u sum) 0 nzero dist)).

  (** k_means.rs lines 336-356: the rows chosen so far are [cens] (as matrix rows) and [chosen] (their positions,
      not in the code). *)
  Fixpoint kpp_loop (inputs : matrix F) (us : list F) (chosen : list nat) (cens : list (list F)) : res (list nat * list (list F)) :=
    match us with
    | [] => Ok (chosen, cens)
    | u :: us' =>
        let? (_, dist) := find_closest_centroids (Mat cens (mcols inputs)) inputs in
        if negb (forallb nfinite dist) then Err InvalidData
        else
          let? next := sample_discretely dist u in
          let? r := ridx (mrows inputs) next in
          kpp_loop inputs us' (chosen ++ [next]) (cens ++ [r])
    end.
  (** k_means.rs lines 326-359. [first] is the draw of line 330, [us] the [k - 1] draws of the loop.
      [Matrix::new] asserts that the data has [k * cols] entries. *)
  Definition kpp (inputs : matrix F) (k first : nat) (us : list F) : res (list nat * matrix F) :=
    let? r := ridx (mrows inputs) first in
    let? (chosen, cens) := kpp_loop inputs us [first] [r] in
    rassert (length cens * mcols inputs =? k * mcols inputs) (Ok (chosen, Mat cens (mcols inputs))).
End KMeans.
Arguments KMeans : clear implicits.
