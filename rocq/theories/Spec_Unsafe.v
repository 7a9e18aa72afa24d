(** * What it means that code with [unsafe] blocks is used safely *)
From Coq Require Import List Arith Bool.
From Verif Require Import Base Num Linalg Model_KNN Model_Unsafe.
Import ListNotations.

(** No access outside a buffer and no read of uninitialised memory, and the answer is [r]: the one the model with
    checked accesses gives, about which the other properties speak. *)
Definition sound_as {A} (m : mem A) (r : res A) : Prop := m <> MUB /\ m = lift r.

(** The same for code that may run for ever ([None] in both cases). *)
Definition sound_as_opt {A} (m : option (mem A)) (r : option (res A)) : Prop :=
  m <> Some MUB /\ m = option_map lift r.

(** A tree whose root is a branch, and the column its root splits on. *)
Definition splits_on {F G} (t : node (F := F) G) (dim : nat) : Prop :=
  exists sp g l r, t = Branch dim sp g l r.

(** [KDTree] and [BallTree] as searchers of a classifier: what [build] leaves behind. *)
Definition tree_searcher {F G} {N : Num F} (B : BinarySplit (F := F) G) (fuel leafsize : nat)
    (_ : option (node (F := F) G * matrix F)) (data : matrix F) : res (option (node (F := F) G * matrix F)) :=
  match tree_build B fuel leafsize data with Some (Ok t) => Ok (Some (t, data)) | Some (Err e) => Err e | _ => Panic end.
