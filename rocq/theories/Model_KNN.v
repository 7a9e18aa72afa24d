(** * Model of [src/learning/knn/mod.rs], [brute_force.rs] and [binary_tree.rs] *)
From Coq Require Import List Arith Bool.
From Verif Require Import Base Num Linalg Spec_Calc.
Import ListNotations.

Section KNN.
  Context {F : Type} {N : Num F}.
  Local Open Scope num_scope.

  (** mod.rs lines 278-285. *)
  Definition dist (v1 v2 : list F) : F :=
    nsqrt (vsum (map2 (fun x y => (x - y) * (x - y)) v1 v2)).

  (** mod.rs lines 264-276.  [select_rows(&[id])] panics when [id] is out of range. *)
  Definition get_distances (data : matrix F) (point : list F) (ids : list nat) : res (list F) :=
    rassert (match ids with [] => false | _ => true end)
      (rmap (fun id => let? row := ridx (mrows data) id in Ok (dist point row)) ids).

  (** ** KNearest (mod.rs lines 142-231) *)

  (** mod.rs lines 142-148.  A container is its vector of pairs, sorted by distance; [k] is passed along. *)
  Definition pairs := list (nat * F).

  (** [sort_by(|x, y| x.1.partial_cmp(&y.1).unwrap())] (mod.rs line 161): stable sort; panics when
      a NaN is compared, i.e. when there is a NaN among two or more elements. *)
  Fixpoint sort_insert (p : nat * F) (l : pairs) : pairs :=
    match l with
    | [] => [p]
    | q :: l' => if snd q <? snd p then q :: sort_insert p l' else p :: l
    end.
  (** mod.rs line 161: the sort as a whole. *)
  Fixpoint sort_pairs (l : pairs) : pairs :=
    match l with [] => [] | p :: l' => sort_insert p (sort_pairs l') end.

  (** mod.rs lines 151-168.  The [debug_assert]s hold for every caller ([get_distances] panics on
      an empty index list in every build profile). *)
  Definition knearest_new (k : nat) (index : list nat) (distances : list F) : res pairs :=
    let ps := combine index distances in
    if (2 <=? length ps)%nat && existsb (fun p => nnan (snd p)) ps then Panic
    else Ok (firstn k (sort_pairs ps)).

  (** [Vec::insert(i, x)], mod.rs lines 197 and 201. *)
  Definition vec_insert {A} (i : nat) (x : A) (l : list A) : list A := firstn i l ++ x :: skipn i l.

  (** mod.rs lines 172-205: scan positions [j-1], [j-2], ..., 0 for an element closer than
      [distance]. *)
  Fixpoint add_scan (j : nat) (ps : pairs) (p : nat * F) : res pairs :=
    match j with
    | O => Ok (vec_insert 0 p ps)
    | S j' =>
        let? q := ridx ps j' in
        if snd q <? snd p then Ok (vec_insert j p ps) else add_scan j' ps p
    end.

  (** mod.rs lines 172-205; returns the new pairs and the returned distance.  The
      [get_unchecked] accesses are checked here ([Panic] stands for undefined behaviour). *)
  Definition knearest_add (k : nat) (ps : pairs) (index : nat) (distance : F) : res (pairs * F) :=
    let len := length ps in
    let last_index := if (len <? k)%nat then len else (len - 1)%nat in
    let? last := ridx ps (len - 1) in
    if snd last <? distance then
      let ps' := if (len <? k)%nat then ps ++ [(index, distance)] else ps in
      let? q := ridx ps' last_index in Ok (ps', snd q)
    else
      let ps1 := if (k <=? len)%nat then removelast ps else ps in
      let? ps' := add_scan (len - 1) ps1 (index, distance) in
      let? q := ridx ps' last_index in Ok (ps', snd q).

  (** mod.rs lines 208-220. *)
  Definition knearest_dist (k : nat) (ps : pairs) : res F :=
    let len := length ps in
    if (len <? k)%nat then Ok nmaxv
    else let? q := ridx ps (len - 1) in Ok (snd q).

  (** mod.rs lines 223-231: [get_results]. *)
  Definition get_results (ps : pairs) : list nat * list F := (map fst ps, map snd ps).

  (** Loop shared by brute_force.rs lines 62-68 and binary_tree.rs lines 408-412: offer the
      candidates in order. *)
  Fixpoint offer (k : nat) (cands : list (nat * F)) (ps : pairs) (current : F) : res pairs :=
    match cands with
    | [] => Ok ps
    | (i, d) :: cands' =>
        if d <? current then
          let? r := knearest_add k ps i d in
          let '(ps', current') := r in offer k cands' ps' current'
        else offer k cands' ps current
    end.

  (** ** BruteForce (brute_force.rs lines 53-73) *)
  Definition brute_search (data : option (matrix F)) (point : list F) (k : nat) : res (list nat * list F) :=
    match data with
    | None => Err UntrainedModel
    | Some data =>
        let indices := seq 0 k in
        let? distances := get_distances data point indices in
        let? query := knearest_new k indices distances in
        let? current := knearest_dist k query in
        let cands := combine (seq k (nrows data - k)) (map (dist point) (skipn k (mrows data))) in
        let? query' := offer k cands query current in
        Ok (get_results query')
    end.

  (** ** Binary trees *)

  (** binary_tree.rs lines 217-231 and 64-98: a branch holds the split and its geometry [G]
      (the bounding box, or centre and radius). *)
  Inductive node (G : Type) : Type :=
  | Leaf (children : list nat)
  | Branch (dim : nat) (split : F) (geom : G) (left right : node G).
  Arguments Leaf {G}. Arguments Branch {G}.

  (** binary_tree.rs lines 42-62: the trait [BinarySplit]. *)
  Record BinarySplit (G : Type) := {
    bs_build : matrix F -> list nat -> list F -> list F -> res G;   (* data, remains, min, max *)
    bs_dist : G -> list F -> F
  }.
  Arguments bs_build {G}. Arguments bs_dist {G}.

  (** binary_tree.rs lines 135-148: distance to the bounding box. *)
  Fixpoint box_sum (point mins maxs : list F) (d : F) : F :=
    match point, mins, maxs with
    | p :: point', mi :: mins', ma :: maxs' =>
        box_sum point' mins' maxs'
          (if p <? mi then d + (mi - p) * (mi - p)
           else if ma <? p then d + (ma - p) * (ma - p) else d)
    | _, _, _ => d
    end.
  (** binary_tree.rs lines 108-158: [KDTreeBranch]. *)
  Definition kd_split : BinarySplit (list F * list F) := {|
    bs_build := fun _ _ mins maxs => Ok (mins, maxs);           (* binary_tree.rs lines 108-122 *)
    bs_dist := fun g point => nsqrt (box_sum point (fst g) (snd g) nzero)
  |}.

  (** binary_tree.rs lines 161-190: centre and radius; lines 207-214: distance to the ball. *)
  Definition ball_center (data : matrix F) (rows : list (list F)) (len : nat) : list F :=
    map (fun c => c / nofnat len)
        (fold_left (fun acc row => map2 nadd acc row) rows (repeat nzero (mcols data))).
  (** binary_tree.rs lines 161-190: the largest distance from the centre. *)
  Definition ball_radius (center : list F) (rows : list (list F)) : F :=
    fold_left (fun radius row => let d := dist center row in if d >? radius then d else radius) rows nzero.
  (** binary_tree.rs lines 160-224: [BallTreeBranch]. *)
  Definition ball_split : BinarySplit (list F * F) := {|
    bs_build := fun data remains _ _ =>
      let? rows := rmap (ridx (mrows data)) remains in
      let center := ball_center data rows (length remains) in
      Ok (center, ball_radius center rows);
    bs_dist := fun g point =>
      let d := dist (fst g) point in
      if d <? snd g then nzero else d - snd g
  |}.

  Section Tree.
    Context {G : Type} (B : BinarySplit G).

    (** binary_tree.rs lines 276-329.  [None] = the loop has not finished within [fuel] rounds. *)
    Fixpoint select_split (fuel : nat) (data : matrix F) (remains : list nat) (dmin dmax : list F)
      : option (res (nat * F * list nat * list nat * list F * list F)) :=
      match fuel with
      | O => None
      | S fuel' =>
          match argmax (vsub dmax dmin) with
          | Ok (dim, d) =>
              let split := nth dim dmin nzero + d / (nonev + nonev) in
              let isleft r := nth dim (nth r (mrows data) []) nzero <? split in
              let l_remains := filter isleft remains in
              let r_remains := filter (fun r => negb (isleft r)) remains in
              match l_remains, r_remains with
              | [], _ => select_split fuel' data r_remains (vset dmin dim split) dmax
              | _, [] => select_split fuel' data l_remains dmin (vset dmax dim split)
              | _, _ => Some (Ok (dim, split, l_remains, r_remains, vset dmax dim split, vset dmin dim split))
              end
          | Err e => Some (Err e)
          | Panic => Some Panic
          end
      end.

    (** binary_tree.rs lines 332-347. *)
    Fixpoint split (fuel : nat) (leafsize : nat) (data : matrix F) (remains : list nat) (dmin dmax : list F)
      : option (res (node G)) :=
      match fuel with
      | O => None
      | S fuel' =>
          if (length remains <? leafsize)%nat then Some (Ok (Leaf remains))
          else
            match select_split fuel' data remains dmin dmax with
            | None => None
            | Some (Err e) => Some (Err e)
            | Some Panic => Some Panic
            | Some (Ok (dim, sp, l_remains, r_remains, l_max, r_min)) =>
                match split fuel' leafsize data l_remains dmin l_max with
                | Some (Ok l_node) =>
                    match split fuel' leafsize data r_remains r_min dmax with
                    | Some (Ok r_node) =>
                        Some (let? g := bs_build B data remains dmin dmax in
                              Ok (Branch dim sp g l_node r_node))
                    | other => other
                    end
                | other => other
                end
            end
      end.

    (** binary_tree.rs lines 433-466 ([min] / [max] of each column; the first row is read before
        the loop). *)
    Definition data_min (data : matrix F) : res (list F) :=
      match mrows data with
      | [] => if (mcols data =? 0)%nat then Ok [] else Panic
      | r0 :: _ => Ok (fold_left (fun acc row => map2 (fun r v => if r >? v then v else r) acc row) (mrows data) r0)
      end.
    (** binary_tree.rs lines 451-466. *)
    Definition data_max (data : matrix F) : res (list F) :=
      match mrows data with
      | [] => if (mcols data =? 0)%nat then Ok [] else Panic
      | r0 :: _ => Ok (fold_left (fun acc row => map2 (fun r v => if r <? v then v else r) acc row) (mrows data) r0)
      end.

    (** binary_tree.rs lines 389-395. *)
    Definition tree_build (fuel leafsize : nat) (data : matrix F) : option (res (node G)) :=
      match data_min data, data_max data with
      | Ok dmin, Ok dmax => split fuel leafsize data (seq 0 (nrows data)) dmin dmax
      | _, _ => Some Panic
      end.

    (** binary_tree.rs lines 350-382: descend to the leaf on the query's side, collecting the other
        sides.  [maybe_close] is lines 124-133 / 194-203 ([get_unchecked(dim)] is checked here). *)
    Fixpoint search_leaf (n : node G) (point : list F) (queue : list (node G)) : res (list nat * list (node G)) :=
      match n with
      | Leaf children => Ok (children, queue)
      | Branch dim sp _ l r =>
          let? p := ridx point dim in
          if p <? sp then search_leaf l point (queue ++ [r]) else search_leaf r point (queue ++ [l])
      end.

    (** binary_tree.rs lines 402-423.  [fuel] bounds the number of nodes popped; running out is
        reported as [Panic] and excluded by the theorems. *)
    Fixpoint search_loop (fuel k : nat) (data : matrix F) (point : list F) (queue : list (node G)) (query : pairs)
      : res pairs :=
      match queue with
      | [] => Ok query
      | current :: queue' =>
          match fuel with
          | O => Panic
          | S fuel' =>
              match current with
              | Leaf children =>
                  let? distances := get_distances data point children in
                  let? cur := knearest_dist k query in
                  let? query' := offer k (combine children distances) query cur in
                  search_loop fuel' k data point queue' query'
              | Branch _ _ g l r =>
                  let d := bs_dist B g point in
                  let? cur := knearest_dist k query in
                  if d <? cur then search_loop fuel' k data point (queue' ++ [l; r]) query
                  else search_loop fuel' k data point queue' query
              end
          end
      end.

    (** Number of nodes of a tree: how many rounds the search loop (binary_tree.rs lines 402-423) can make. *)
    Fixpoint tsize (n : node G) : nat :=
      match n with Leaf _ => 1 | Branch _ _ _ l r => 1 + tsize l + tsize r end.

    (** binary_tree.rs lines 398-428.  [tree] is [(root, data)] of a built tree. *)
    Definition tree_search (tree : option (node G * matrix F)) (point : list F) (k : nat) : res (list nat * list F) :=
      match tree with
      | None => Err UntrainedModel
      | Some (root, data) =>
          let? lq := search_leaf root point [] in
          let '(children, queue) := lq in
          let? distances := get_distances data point children in
          let? query := knearest_new k children distances in
          let? query' := search_loop (tsize root) k data point queue query in
          Ok (get_results query')
      end.
  End Tree.

  (** ** KNNClassifier *)

  (** mod.rs lines 247-261: counts per label, in ascending order of labels ([BTreeMap]). *)
  Fixpoint freq_add (l : nat) (m : list (nat * nat)) : list (nat * nat) :=
    match m with
    | [] => [(l, 1)]
    | (x, c) :: m' =>
        if (l <? x)%nat then (l, 1) :: m
        else if (l =? x)%nat then (x, c + 1)%nat :: m'
        else (x, c) :: freq_add l m'
    end.
  (** mod.rs lines 247-261. *)
  Definition freq (labels : list nat) : list (nat * nat) := fold_left (fun m l => freq_add l m) labels [].

  (** [counts.argmax()] (mod.rs line 118) on a vector of counts: first index of the maximum. *)
  Fixpoint argmax_nat (l : list nat) (i bi bv : nat) : nat :=
    match l with
    | [] => bi
    | x :: l' => if (bv <? x)%nat then argmax_nat l' (S i) i x else argmax_nat l' (S i) bi bv
    end.
  (** mod.rs lines 116-119: the label with the largest count. *)
  Definition vote (labels : list nat) : res nat :=
    let fr := freq labels in
    match map snd fr with
    | [] => Panic                              (* argmax of an empty vector asserts *)
    | c :: counts => ridx (map fst fr) (argmax_nat counts 1 0 c)
    end.

  (** mod.rs lines 42-48. *)
  Record KNNClassifier (S : Type) := { knn_k : nat; knn_searcher : S; knn_target : option (list nat) }.

  Section Classifier.
    Context {S : Type} (s_build : S -> matrix F -> res S)
            (s_search : S -> list F -> nat -> res (list nat * list F)).

    (** mod.rs lines 106-123. *)
    Definition knn_predict (c : KNNClassifier S) (inputs : matrix F) : res (list nat) :=
      match knn_target _ c with
      | Some target =>
          rmap (fun row =>
                  let? sd := s_search (knn_searcher _ c) row (knn_k _ c) in
                  let? labels := rmap (ridx target) (fst sd) in
                  vote labels) (mrows inputs)
      | None => Err UntrainedModel
      end.

    (** mod.rs lines 125-137: new state and result. *)
    Definition knn_train (c : KNNClassifier S) (inputs : matrix F) (targets : list nat)
      : KNNClassifier S * res unit :=
      if negb (nrows inputs =? length targets)%nat then (c, Err InvalidData)
      else if (nrows inputs <? knn_k _ c)%nat then (c, Err InvalidData)
      else match s_build (knn_searcher _ c) inputs with
           | Ok s => ({| knn_k := knn_k _ c; knn_searcher := s; knn_target := Some targets |}, Ok tt)
           | Err e => (c, Err e)
           | Panic => (c, Panic)
           end.
  End Classifier.
End KNN.
Arguments Leaf {F G}. Arguments Branch {F G}.
Arguments bs_build {F G}. Arguments bs_dist {F G}.
