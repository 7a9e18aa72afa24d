(** * Model of [src/learning/dbscan.rs] *)
From Coq Require Import List Arith Bool.
From Verif Require Import Base Num Linalg.
Import ListNotations.

Section DBSCAN.
  Context {F : Type} {N : Num F}.

  (** dbscan.rs lines 204-205 and 116-118: [utils::vec_bin_op(a, b, |x, y| x - y)], then the square root of
      its dot product with itself (summed left to right here, [rulinalg] unrolls the sum). *)
  Definition edist (a b : list F) : F := let d := vsub a b in nsqrt (dot d d).

  (** dbscan.rs lines 51-58.  [_visited] is rebuilt by every [train] (lines 216-223) and so not kept. *)
  Record DBSCAN := {
    db_eps : F;
    db_min_points : nat;
    db_clusters : option (list (option nat));
    db_predictive : bool;
    db_cluster_data : option (matrix F)
  }.

  (** dbscan.rs lines 143-154. *)
  Definition dbscan_new (eps : F) (min_points : nat) : res DBSCAN :=
    rassert (nltb nzero eps)
      (Ok {| db_eps := eps; db_min_points := min_points; db_clusters := None;
             db_predictive := false; db_cluster_data := None |}).

  (** dbscan.rs lines 161-163. *)
  Definition set_predictive (m : DBSCAN) (b : bool) : DBSCAN :=
    {| db_eps := db_eps m; db_min_points := db_min_points m; db_clusters := db_clusters m;
       db_predictive := b; db_cluster_data := db_cluster_data m |}.

  Section Train.
    Context (eps : F) (min_points : nat) (inputs : matrix F).

    (** dbscan.rs lines 197-213. *)
    Definition region_query (point : list F) : list nat :=
      map fst (filter (fun p => nltb (edist (snd p) point) eps) (combine (seq 0 (nrows inputs)) (mrows inputs))).

    (** dbscan.rs lines 53-60, what [train] works on: [_visited], [clusters], and (for counting only, not in the code) the
        rows [region_query] was called for. *)
    Record work := { w_visited : list bool; w_clusters : list (option nat); w_queries : list nat }.

    (** dbscan.rs lines 88 and 185: [self._visited[i] = true]. *)
    Definition visit (w : work) (idx : nat) : option work :=
      match upd (w_visited w) idx true with
      | Some v => Some {| w_visited := v; w_clusters := w_clusters w; w_queries := idx :: w_queries w |}
      | None => None
      end.
    (** dbscan.rs line 180: the row is put in a cluster. *)
    Definition label (w : work) (idx c : nat) : option work :=
      match upd (w_clusters w) idx (Some c) with
      | Some l => Some {| w_visited := w_visited w; w_clusters := l; w_queries := w_queries w |}
      | None => None
      end.

    (** The [for] loop of dbscan.rs lines 182-193, with the recursive call as a parameter. *)
    Fixpoint visit_all (rec : work -> nat -> list nat -> option work) (nbs : list nat) (w : work) : option work :=
      match nbs with
      | [] => Some w
      | j :: nbs' =>
          match nth_error (w_visited w) j with
          | None => None                                  (* index panic *)
          | Some true => visit_all rec nbs' w
          | Some false =>
              match visit w j, nth_error (mrows inputs) j with
              | Some w1, Some row =>
                  let sub := region_query row in
                  if min_points <=? length sub then
                    match rec w1 j sub with
                    | Some w2 => visit_all rec nbs' w2
                    | None => None
                    end
                  else visit_all rec nbs' w1
              | _, _ => None
              end
          end
      end.

    (** dbscan.rs lines 170-194.  [fuel] bounds the depth of the recursion; [None]: out of fuel or an index out
        of range, both excluded by the theorems. *)
    Fixpoint expand_cluster (fuel : nat) (c : nat) (w : work) (idx : nat) (nbs : list nat) : option work :=
      match fuel with
      | O => None
      | S fuel' =>
          match label w idx c with
          | Some w1 => visit_all (expand_cluster fuel' c) nbs w1
          | None => None
          end
      end.

    (** dbscan.rs lines 84-97: the loop over the rows, with the cluster counter. *)
    Fixpoint train_loop (fuel : nat) (rows : list (list F)) (idx : nat) (cluster : nat) (w : work)
      : option (work * nat) :=
      match rows with
      | [] => Some (w, cluster)
      | point :: rows' =>
          match nth_error (w_visited w) idx with
          | None => None
          | Some true => train_loop fuel rows' (S idx) cluster w
          | Some false =>
              match visit w idx with
              | None => None
              | Some w1 =>
                  let nbs := region_query point in
                  if min_points <=? length nbs then
                    match expand_cluster fuel cluster w1 idx nbs with
                    | Some w2 => train_loop fuel rows' (S idx) (S cluster) w2
                    | None => None
                    end
                  else train_loop fuel rows' (S idx) cluster w1
              end
          end
      end.

    (** dbscan.rs lines 215-226. *)
    Definition init_params : work :=
      {| w_visited := repeat false (nrows inputs); w_clusters := repeat None (nrows inputs); w_queries := [] |}.

    (** dbscan.rs lines 80-97 of [train], with [init_params]: the labels of all rows. *)
    Definition clustering (fuel : nat) : option (work * nat) := train_loop fuel (mrows inputs) 0 0 init_params.
  End Train.

  (** dbscan.rs lines 80-104. *)
  Definition dbscan_train (fuel : nat) (m : DBSCAN) (inputs : matrix F) : option DBSCAN :=
    match clustering (db_eps m) (db_min_points m) inputs fuel with
    | None => None
    | Some (w, _) =>
        Some {| db_eps := db_eps m; db_min_points := db_min_points m; db_clusters := Some (w_clusters w);
                db_predictive := db_predictive m;
                db_cluster_data := if db_predictive m then Some inputs else db_cluster_data m |}
    end.

  (** dbscan.rs lines 106-137. *)
  Definition dbscan_predict (m : DBSCAN) (inputs : matrix F) : res (list (option nat)) :=
    if db_predictive m then
      match db_cluster_data m, db_clusters m with
      | Some cluster_data, Some clusters =>
          rmap (fun input_point =>
                  let distances := map (fun cluster_point => edist input_point cluster_point) (mrows cluster_data) in
                  let? closest := argmin distances in
                  if nltb (snd closest) (db_eps m) then ridx clusters (fst closest) else Ok None) (mrows inputs)
      | _, _ => Err UntrainedModel
      end
    else Err InvalidState.
End DBSCAN.
Arguments DBSCAN : clear implicits.
