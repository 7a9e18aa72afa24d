(** * Specification of k-fold cross validation *)
From Coq Require Import List Arith Permutation.
From Verif Require Import Base.
Import ListNotations.

(** A list of (train, test) index lists is a k-fold partition of samples [0..n-1]:
    k splits; each split uses every sample exactly once, for training or for testing; every sample
    is tested exactly once overall; the first [n mod k] test sets have one sample more than the
    others. *)
Definition kfold_partition (n k : nat) (ps : list (list nat * list nat)) : Prop :=
  length ps = k /\
  (forall tr te, In (tr, te) ps -> Permutation (tr ++ te) (seq 0 n)) /\
  Permutation (concat (map snd ps)) (seq 0 n) /\
  (forall i tr te, nth_error ps i = Some (tr, te) ->
     length te = n / k + (if i <? n mod k then 1 else 0)).

(** [xs] are the rows of [rows] at the positions [idx]. *)
Definition rows_at {X} (rows : list X) (idx : list nat) (xs : list X) : Prop :=
  Forall2 (fun i x => nth_error rows i = Some x) idx xs.

(** What validating over the given splits means: a log of train / predict / score steps. *)
Inductive validated {M X Y F : Type}
  (train : M -> list X -> list Y -> res unit * M)
  (predict : M -> list X -> res (list Y))
  (score : list Y -> list Y -> res F)
  (inputs : list X) (targets : list Y)
  : list (list nat * list nat) -> M -> res (list F) -> M -> Prop :=
| v_nil m : validated train predict score inputs targets [] m (Ok []) m
| v_cons tr te ps m m1 xtr ytr xte yte out c cs m2 :
    rows_at inputs tr xtr -> rows_at targets tr ytr -> rows_at inputs te xte -> rows_at targets te yte ->
    train m xtr ytr = (Ok tt, m1) -> predict m1 xte = Ok out -> score out yte = Ok c ->
    validated train predict score inputs targets ps m1 (Ok cs) m2 ->
    validated train predict score inputs targets ((tr, te) :: ps) m (Ok (c :: cs)) m2
| v_later tr te ps m m1 xtr ytr xte yte out c m2 r :
    rows_at inputs tr xtr -> rows_at targets tr ytr -> rows_at inputs te xte -> rows_at targets te yte ->
    train m xtr ytr = (Ok tt, m1) -> predict m1 xte = Ok out -> score out yte = Ok c ->
    validated train predict score inputs targets ps m1 r m2 -> (r = Panic \/ exists e, r = Err e) ->
    validated train predict score inputs targets ((tr, te) :: ps) m r m2
| v_train tr te ps m m1 xtr ytr r e :
    rows_at inputs tr xtr -> rows_at targets tr ytr ->
    train m xtr ytr = (r, m1) -> (r = Err e \/ r = Panic) ->
    validated train predict score inputs targets ((tr, te) :: ps) m
      (match r with Err k => Err k | _ => Panic end) m1
| v_predict tr te ps m m1 xtr ytr xte r e :
    rows_at inputs tr xtr -> rows_at targets tr ytr -> rows_at inputs te xte ->
    train m xtr ytr = (Ok tt, m1) -> predict m1 xte = r -> (r = Err e \/ r = Panic) ->
    validated train predict score inputs targets ((tr, te) :: ps) m
      (match r with Err k => Err k | _ => Panic end) m1
| v_score tr te ps m m1 xtr ytr xte yte out r e :
    rows_at inputs tr xtr -> rows_at targets tr ytr -> rows_at inputs te xte -> rows_at targets te yte ->
    train m xtr ytr = (Ok tt, m1) -> predict m1 xte = Ok out -> score out yte = r -> (r = Err e \/ r = Panic) ->
    validated train predict score inputs targets ((tr, te) :: ps) m
      (match r with Err k => Err k | _ => Panic end) m1.

(** Score of one split for a model in state [m0] (no earlier training on the side). *)
Definition split_score {M X Y F : Type}
  (train : M -> list X -> list Y -> res unit * M) (predict : M -> list X -> res (list Y))
  (score : list Y -> list Y -> res F) (inputs : list X) (targets : list Y) (m0 : M)
  (p : list nat * list nat) (c : F) : Prop :=
  exists xtr ytr xte yte m1 out,
    rows_at inputs (fst p) xtr /\ rows_at targets (fst p) ytr /\
    rows_at inputs (snd p) xte /\ rows_at targets (snd p) yte /\
    train m0 xtr ytr = (Ok tt, m1) /\ predict m1 xte = Ok out /\ score out yte = Ok c.

(** Models whose training does not depend on the state they were in. *)
Definition memoryless {M X Y : Type} (train : M -> list X -> list Y -> res unit * M) : Prop :=
  forall m m' xs ys, train m xs ys = train m' xs ys.
