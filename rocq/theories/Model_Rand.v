(** * Model of [src/learning/toolkit/rand_utils.rs] and [src/data/transforms/shuffle.rs] *)
From Coq Require Import List Arith.
From Verif Require Import Base.
Import ListNotations.

Section Rand.
  Context {A : Type}.

  (** rand_utils.rs lines 28-38, one round of the [while] loop: [ele_seen] has already been
      incremented by the caller; [p0] is the head of the remaining pool. *)
  Definition reservoir_round (reservoir_size ele_seen : nat) (p0 : A) (res : list A) : Rnd (list A) :=
    let! r := gen_range ele_seen in
    if r <? reservoir_size then rnd_opt (upd res r p0) else RRet res.

  (** rand_utils.rs lines 28-38: the loop over the remaining pool. *)
  Fixpoint reservoir_loop (reservoir_size ele_seen : nat) (pool_mut res : list A) : Rnd (list A) :=
    match pool_mut with
    | [] => RRet res
    | p0 :: pool_mut' =>
        let! res' := reservoir_round reservoir_size (S ele_seen) p0 res in
        reservoir_loop reservoir_size (S ele_seen) pool_mut' res'
    end.

  (** rand_utils.rs lines 16-41. *)
  Definition reservoir_sample (pool : list A) (reservoir_size : nat) : Rnd (list A) :=
    if reservoir_size <=? length pool
    then reservoir_loop reservoir_size reservoir_size
           (skipn reservoir_size pool) (firstn reservoir_size pool)
    else RPanic.

  (** rand_utils.rs lines 68-81, body of the loop.  Uninitialised cells (left by [set_len],
      line 65) are [None]; reading one is an undefined read, modelled as [RPanic]. *)
  Definition fisher_yates_body (arr : list A) (i : nat) (sh : list (option A)) : Rnd (list (option A)) :=
    let! j := gen_range (i + 1) in
    let! sh1 :=
      (if negb (j =? i) then
         let! c := rnd_opt (nth_error sh j) in
         let! x := rnd_opt c in
         rnd_opt (upd sh i (Some x))
       else RRet sh) in
    let! a := rnd_opt (nth_error arr i) in
    rnd_opt (upd sh1 j (Some a)).

  (** rand_utils.rs lines 62-66: a fully initialised buffer as a plain vector; an uninitialised cell in the result would be
      an undefined value. *)
  Fixpoint all_init (sh : list (option A)) : option (list A) :=
    match sh with
    | [] => Some []
    | None :: _ => None
    | Some a :: sh' => match all_init sh' with Some l => Some (a :: l) | None => None end
    end.

  (** rand_utils.rs lines 56-84. *)
  Definition fisher_yates (arr : list A) : Rnd (list A) :=
    let n := length arr in
    let! sh := rnd_for 0 n (fisher_yates_body arr) (repeat None n) in
    rnd_opt (all_init sh).

  (** rand_utils.rs lines 103-107, body of the loop. *)
  Definition in_place_body (n i : nat) (arr : list A) : Rnd (list A) :=
    let! j := gen_range (n - i) in
    rnd_opt (swap arr i (i + j)).

  (** rand_utils.rs lines 99-108. *)
  Definition in_place_fisher_yates (arr : list A) : Rnd (list A) :=
    let n := length arr in rnd_for 0 n (in_place_body n) arr.

End Rand.

(** shuffle.rs lines 79-88 (struct lines 40-47): every row index [i] is swapped with
    [i + gen_range(0, rows - i)].  A matrix is its list of rows; [swap_rows] is [swap].
    The generator [R] of the struct is the choice oracle. *)
Definition shuffler_transform {A} (rows : list A) : Rnd (list A) :=
  let n := length rows in
  rnd_for 0 n (fun i m => let! j := gen_range (n - i) in rnd_opt (swap m i (i + j))) rows.
