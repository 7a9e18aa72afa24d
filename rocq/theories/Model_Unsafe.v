(** * Model of the [unsafe] blocks, with undefined behaviour told apart from panics

    The other model files use [Panic] for an unchecked access out of range.  Here the functions that contain
    [unsafe] blocks are modelled once more with a fourth kind of result, [MUB], for an access outside the buffer or
    a read of uninitialised memory.  Safe code they call is taken from the other files through [lift].
    [checked] is the build profile: with overflow checks (debug) [0 - 1] on [usize] panics, without (release) it
    wraps round. *)
From Coq Require Import List Arith Bool.
From Verif Require Import Base Num NumFn Linalg Spec_Calc Model_Cost Model_Toolkit Model_Optim Model_Regression Model_KNN Model_KMeans Model_PCA Model_NNet.
Import ListNotations.

(** What a call of code with [unsafe] blocks can do. *)
Inductive mem (A : Type) : Type :=
| MOk (a : A)
| MErr (k : ErrorKind)
| MPanic
| MUB.
Arguments MOk {A} a. Arguments MErr {A} k. Arguments MPanic {A}. Arguments MUB {A}.

(** Sequencing. *)
Definition mbind {A B} (r : mem A) (f : A -> mem B) : mem B :=
  match r with MOk a => f a | MErr k => MErr k | MPanic => MPanic | MUB => MUB end.
Notation "'let@' x ':=' r 'in' f" := (mbind r (fun x => f))
  (at level 200, x pattern, r at level 100, f at level 200, right associativity).

(** A call of safe code. *)
Definition lift {A} (r : res A) : mem A := match r with Ok a => MOk a | Err k => MErr k | Panic => MPanic end.

(** The results of a sequence of calls. *)
Fixpoint mmap {A B} (f : A -> mem B) (l : list A) : mem (list B) :=
  match l with
  | [] => MOk []
  | a :: l' => let@ b := f a in let@ bs := mmap f l' in MOk (b :: bs)
  end.

(** Subtraction on [usize].  [None] is the wrapped value, which lies beyond the end of every buffer. *)
Definition usub (checked : bool) (a b : nat) : mem (option nat) :=
  if b <=? a then MOk (Some (a - b)) else if checked then MPanic else MOk None.

(** [slice::get_unchecked]. *)
Definition uget {A} (l : list A) (i : option nat) : mem A :=
  match i with
  | Some i => match nth_error l i with Some a => MOk a | None => MUB end
  | None => MUB
  end.

(** [rulinalg]: [get_unchecked([row, col])] of a matrix, which must lie inside its shape. *)
Definition uget2 {F} (m : matrix F) (i j : nat) : mem F :=
  let@ r := uget (mrows m) (Some i) in uget r (Some j).

Section KNN.
  Context {F : Type} {N : Num F} (checked : bool).
  Local Open Scope num_scope.

  (** knn/mod.rs lines 195-200: the loop from the last but one pair down. *)
  Fixpoint m_add_scan (j : nat) (ps : list (nat * F)) (p : nat * F) : mem (list (nat * F)) :=
    match j with
    | O => MOk (vec_insert 0 p ps)
    | S j' =>
        let@ q := uget ps (Some j') in
        if snd q <? snd p then MOk (vec_insert j p ps) else m_add_scan j' ps p
    end.

  (** knn/mod.rs lines 172-205.  The loop of lines 195-200 is empty when [len] is 0. *)
  Definition m_knearest_add (k : nat) (ps : list (nat * F)) (index : nat) (distance : F) : mem (list (nat * F) * F) :=
    let len := length ps in
    let@ last_index := (if (len <? k)%nat then MOk (Some len) else usub checked len 1) in
    let@ last_pos := usub checked len 1 in
    let@ last := uget ps last_pos in
    if snd last <? distance then
      let ps' := if (len <? k)%nat then ps ++ [(index, distance)] else ps in
      let@ q := uget ps' last_index in MOk (ps', snd q)
    else
      let ps1 := if (k <=? len)%nat then removelast ps else ps in
      let@ ps' := m_add_scan (len - 1) ps1 (index, distance) in
      let@ q := uget ps' last_index in MOk (ps', snd q).

  (** knn/mod.rs lines 208-220. *)
  Definition m_knearest_dist (k : nat) (ps : list (nat * F)) : mem F :=
    let len := length ps in
    if (len <? k)%nat then MOk nmaxv
    else let@ last_pos := usub checked len 1 in
         let@ q := uget ps last_pos in MOk (snd q).

  (** brute_force.rs lines 62-68 and binary_tree.rs lines 408-412. *)
  Fixpoint m_offer (k : nat) (cands : list (nat * F)) (ps : list (nat * F)) (current : F) : mem (list (nat * F)) :=
    match cands with
    | [] => MOk ps
    | (i, d) :: cands' =>
        if d <? current then
          let@ r := m_knearest_add k ps i d in
          let '(ps', current') := r in m_offer k cands' ps' current'
        else m_offer k cands' ps current
    end.

  (** brute_force.rs lines 53-73. *)
  Definition m_brute_search (data : option (matrix F)) (point : list F) (k : nat) : mem (list nat * list F) :=
    match data with
    | None => MErr UntrainedModel
    | Some data =>
        let indices := seq 0 k in
        let@ distances := lift (get_distances data point indices) in
        let@ query := lift (knearest_new k indices distances) in
        let@ current := m_knearest_dist k query in
        let cands := combine (seq k (nrows data - k)) (map (dist point) (skipn k (mrows data))) in
        let@ query' := m_offer k cands query current in
        MOk (get_results query')
    end.

  Section Tree.
    Context {G : Type} (B : BinarySplit (F := F) G).

    (** binary_tree.rs lines 295-303: which rows go left and which right. *)
    Fixpoint m_partition (data : matrix F) (dim : nat) (sp : F) (remains : list nat) : mem (list nat * list nat) :=
      match remains with
      | [] => MOk ([], [])
      | r :: remains' =>
          let@ x := uget2 data r dim in
          let@ lr := m_partition data dim sp remains' in
          if x <? sp then MOk (r :: fst lr, snd lr) else MOk (fst lr, r :: snd lr)
      end.

    (** binary_tree.rs lines 276-329. *)
    Fixpoint m_select_split (fuel : nat) (data : matrix F) (remains : list nat) (dmin dmax : list F)
      : option (mem (nat * F * list nat * list nat * list F * list F)) :=
      match fuel with
      | O => None
      | S fuel' =>
          match argmax (vsub dmax dmin) with
          | Ok (dim, d) =>
              match (let@ m0 := uget dmin (Some dim) in
                     let sp := m0 + d / (nonev + nonev) in
                     let@ lr := m_partition data dim sp remains in MOk (sp, lr)) with
              | MOk (sp, (l_remains, r_remains)) =>
                  match l_remains, r_remains with
                  | [], _ => m_select_split fuel' data r_remains (vset dmin dim sp) dmax
                  | _, [] => m_select_split fuel' data l_remains dmin (vset dmax dim sp)
                  | _, _ => Some (MOk (dim, sp, l_remains, r_remains, vset dmax dim sp, vset dmin dim sp))
                  end
              | MErr e => Some (MErr e)
              | MPanic => Some MPanic
              | MUB => Some MUB
              end
          | Err e => Some (MErr e)
          | Panic => Some MPanic
          end
      end.

    (** binary_tree.rs lines 332-347. *)
    Fixpoint m_split (fuel : nat) (leafsize : nat) (data : matrix F) (remains : list nat) (dmin dmax : list F)
      : option (mem (node (F := F) G)) :=
      match fuel with
      | O => None
      | S fuel' =>
          if (length remains <? leafsize)%nat then Some (MOk (Leaf remains))
          else
            match m_select_split fuel' data remains dmin dmax with
            | None => None
            | Some (MErr e) => Some (MErr e)
            | Some MPanic => Some MPanic
            | Some MUB => Some MUB
            | Some (MOk (dim, sp, l_remains, r_remains, l_max, r_min)) =>
                match m_split fuel' leafsize data l_remains dmin l_max with
                | Some (MOk l_node) =>
                    match m_split fuel' leafsize data r_remains r_min dmax with
                    | Some (MOk r_node) =>
                        Some (let@ g := lift (bs_build B data remains dmin dmax) in
                              MOk (Branch dim sp g l_node r_node))
                    | other => other
                    end
                | other => other
                end
            end
      end.

    (** binary_tree.rs lines 389-395. *)
    Definition m_tree_build (fuel leafsize : nat) (data : matrix F) : option (mem (node (F := F) G)) :=
      match data_min data, data_max data with
      | Ok dmin, Ok dmax => m_split fuel leafsize data (seq 0 (nrows data)) dmin dmax
      | _, _ => Some MPanic
      end.

    (** binary_tree.rs lines 350-382, with [maybe_close] of lines 124-133 and 194-203. *)
    Fixpoint m_search_leaf (n : node (F := F) G) (point : list F) (queue : list (node (F := F) G)) : mem (list nat * list (node (F := F) G)) :=
      match n with
      | Leaf children => MOk (children, queue)
      | Branch dim sp _ l r =>
          let@ p := uget point (Some dim) in
          if p <? sp then m_search_leaf l point (queue ++ [r]) else m_search_leaf r point (queue ++ [l])
      end.

    (** binary_tree.rs lines 402-423. *)
    Fixpoint m_search_loop (fuel k : nat) (data : matrix F) (point : list F) (queue : list (node (F := F) G)) (query : list (nat * F))
      : mem (list (nat * F)) :=
      match queue with
      | [] => MOk query
      | current :: queue' =>
          match fuel with
          | O => MPanic
          | S fuel' =>
              match current with
              | Leaf children =>
                  let@ distances := lift (get_distances data point children) in
                  let@ cur := m_knearest_dist k query in
                  let@ query' := m_offer k (combine children distances) query cur in
                  m_search_loop fuel' k data point queue' query'
              | Branch _ _ g l r =>
                  let d := bs_dist B g point in
                  let@ cur := m_knearest_dist k query in
                  if d <? cur then m_search_loop fuel' k data point (queue' ++ [l; r]) query
                  else m_search_loop fuel' k data point queue' query
              end
          end
      end.

    (** binary_tree.rs lines 398-428. *)
    Definition m_tree_search (tree : option (node (F := F) G * matrix F)) (point : list F) (k : nat) : mem (list nat * list F) :=
      match tree with
      | None => MErr UntrainedModel
      | Some (root, data) =>
          let@ lq := m_search_leaf root point [] in
          let '(children, queue) := lq in
          let@ distances := lift (get_distances data point children) in
          let@ query := lift (knearest_new k children distances) in
          let@ query' := m_search_loop (tsize root) k data point queue query in
          MOk (get_results query')
      end.
  End Tree.

  (** knn/mod.rs lines 106-123. *)
  Definition m_knn_predict {S} (s_search : S -> list F -> nat -> mem (list nat * list F))
      (c : KNNClassifier S) (inputs : matrix F) : mem (list nat) :=
    match knn_target _ c with
    | Some target =>
        mmap (fun row =>
                let@ sd := s_search (knn_searcher _ c) row (knn_k _ c) in
                lift (let? labels := rmap (ridx target) (fst sd) in vote labels)) (mrows inputs)
    | None => MErr UntrainedModel
    end.
End KNN.

Section PCA.
  Context {F : Type} {N : Num F}.

  (** pca.rs lines 200-204, one row: the column indices are [c], [c+1], ... *)
  Fixpoint m_center_row (row : list F) (c : nat) (centers : list F) : mem (list F) :=
    match row with
    | [] => MOk []
    | x :: row' =>
        let@ y := uget centers (Some c) in
        let@ rest := m_center_row row' (S c) centers in MOk (nsub x y :: rest)
    end.
  (** pca.rs lines 200-204. *)
  Definition m_centering (inputs : matrix F) (centers : list F) : mem (matrix F) :=
    let@ rows := mmap (fun r => m_center_row r 0 centers) (mrows inputs) in MOk (Mat rows (mcols inputs)).

  (** pca.rs lines 122-158. *)
  Definition m_pca_predict (self : PCA F) (inputs : matrix F) : mem (matrix F) :=
    match pca_n_features self with
    | None => MErr UntrainedModel
    | Some f =>
        if negb (f =? mcols inputs)%nat then MErr InvalidData
        else
          match pca_components self with
          | None => MErr UntrainedModel
          | Some comp =>
              if pca_center self then
                match pca_centers self with
                | None => MErr UntrainedModel
                | Some centers =>
                    let@ data := m_centering inputs centers in
                    lift (if pca_inv self then rmat_mul data (transpose comp) else rmat_mul data comp)
                end
              else lift (if pca_inv self then rmat_mul inputs (transpose comp) else rmat_mul inputs comp)
          end
    end.

  (** pca.rs lines 171-180, the only unchecked reads of [train]: centring with the means just computed. *)
  Definition m_pca_train_centering (inputs : matrix F) : mem (matrix F) := m_centering inputs (col_mean inputs).
End PCA.

Section NNet.
  Context {F : Type} {N : Num F} {NF : NumFn F}.
  Local Open Scope num_scope.

  (** nnet/mod.rs lines 319-323, 348-352, 402-406 and 415-419: a matrix made from a raw pointer into the weights. *)
  Definition m_wslice (weights : list F) (start rows cols : nat) : mem (matrix F) :=
    if (start + rows * cols <=? length weights)%nat then MOk (Mat (chunk rows cols (skipn start weights)) cols) else MUB.

  (** nnet/mod.rs lines 307-324 and 239-241. *)
  Definition m_get_net_weights (self : BaseNeuralNet F) (idx : nat) : mem (matrix F) :=
    let start := list_sum (map num_params (firstn idx (nn_layers self))) in
    let@ l := lift (ridx (nn_layers self) idx) in
    m_wslice (nn_weights self) start (fst (nl_param_shape l)) (snd (nl_param_shape l)).

  (** nnet/mod.rs lines 409-428. *)
  Fixpoint m_forward_rest (weights : list F) (layers : list (NetLayer F)) (index : nat) (outputs : matrix F) : mem (matrix F) :=
    match layers with
    | [] => MOk outputs
    | layer :: layers' =>
        let shape := nl_param_shape layer in
        let@ slice := m_wslice weights index (fst shape) (snd shape) in
        match nl_forward layer outputs slice with
        | Ok act => m_forward_rest weights layers' (index + num_params layer) act
        | Err _ => MErr InvalidParameters
        | Panic => MPanic
        end
    end.

  (** nnet/mod.rs lines 396-430 and 84-86. *)
  Definition m_net_predict (self : BaseNeuralNet F) (inputs : matrix F) : mem (matrix F) :=
    match nn_layers self with
    | [] => MOk inputs
    | layer0 :: rest =>
        let shape := nl_param_shape layer0 in
        let@ slice := m_wslice (nn_weights self) 0 (fst shape) (snd shape) in
        let@ outputs := lift (nl_forward layer0 inputs slice) in
        m_forward_rest (nn_weights self) rest (num_params layer0) outputs
    end.

  (** nnet/mod.rs lines 344-366. *)
  Fixpoint m_forward_pass (weights : list F) (layers : list (NetLayer F)) (index : nat) (input : matrix F)
      : mem (list (trace (F := F)) * nat) :=
    match layers with
    | [] => MOk ([], index)
    | layer :: layers' =>
        let shape := nl_param_shape layer in
        let@ slice := m_wslice weights index (fst shape) (snd shape) in
        let@ output := lift (unwrap (nl_forward layer input slice)) in
        let@ (ts, index') := m_forward_pass weights layers' (index + num_params layer) output in
        MOk ((layer, input, output, slice) :: ts, index')
    end.

  (** Reading a cell of [gradients] (nnet/mod.rs lines 386-392), which line 333 creates uninitialised. *)
  Definition m_written (c : option F) : mem F := match c with Some x => MOk x | None => MUB end.

  (** nnet/mod.rs lines 327-393.  As everywhere in these models the caller looks at the whole gradient. *)
  Definition m_net_compute_grad (self : BaseNeuralNet F) (weights : list F) (inputs targets : matrix F) : mem (F * list F) :=
    let gradients := repeat None (length weights) in
    let@ (ts, index) := m_forward_pass weights (nn_layers self) 0 inputs in
    match rev ts with
    | [] => MPanic
    | (_, _, output, _) :: _ =>
        let@ out_grad := lift (cr_cost_grad (nn_criterion self) output targets) in
        let@ (_, gradients, _) := lift (backward_pass (rev ts) index gradients out_grad) in
        let@ gradients := mmap m_written gradients in
        let@ cost := lift (cr_cost (nn_criterion self) output targets) in
        if is_regularized (nn_criterion self) then
          let all_params := as_column weights in
          let rg := mdata (reg_grad (cr_regularization (nn_criterion self)) all_params) in
          lift (rassert (length gradients =? length rg)%nat
            (Ok (cost + reg_cost (cr_regularization (nn_criterion self)) all_params,
                 map2 (fun x y => x + y) gradients rg)))
        else MOk (cost, gradients)
    end.
End NNet.

Section KMeans.
  Context {F : Type} {N : Num F}.

  (** k_means.rs lines 301-308, one round: [get_unchecked_mut(idx)]. *)
  Definition m_assign (a : list (list nat)) (idx i : nat) : mem (list (list nat)) :=
    let@ v := uget a (Some idx) in
    match upd a idx (v ++ [i]) with Some a' => MOk a' | None => MUB end.
  (** k_means.rs lines 301-308. *)
  Fixpoint m_partition_rounds (k start n : nat) (a : list (list nat)) : Rnd (mem (list (list nat))) :=
    match n with
    | O => RRet (MOk a)
    | S n' =>
        let! idx := gen_range k in
        match m_assign a idx start with
        | MOk a' => m_partition_rounds k (S start) n' a'
        | other => RRet other
        end
    end.
  (** k_means.rs lines 298-308. *)
  Definition m_partition_loop (k n : nat) : Rnd (mem (list (list nat))) :=
    m_partition_rounds k k (n - k) (map (fun i => [i]) (seq 0 k)).

  (** k_means.rs lines 336-356.  [buffer] is [init_centroids] as one vector; line 338 reads its first [i] rows. *)
  Fixpoint m_kpp_loop (inputs : matrix F) (us : list F) (i : nat) (buffer : list F) : mem (list F) :=
    match us with
    | [] => MOk buffer
    | u :: us' =>
        let@ temp := m_wslice buffer 0 i (mcols inputs) in
        let@ (_, dist) := lift (find_closest_centroids temp inputs) in
        if negb (forallb nfinite dist) then MErr InvalidData
        else
          let@ next := lift (sample_discretely dist u) in
          let@ r := uget (mrows inputs) (Some next) in
          m_kpp_loop inputs us' (S i) (buffer ++ r)
    end.
  (** k_means.rs lines 326-359. *)
  Definition m_kpp (inputs : matrix F) (k first : nat) (us : list F) : mem (matrix F) :=
    let@ r := uget (mrows inputs) (Some first) in
    let@ buffer := m_kpp_loop inputs us 1 r in
    lift (mat_new k (mcols inputs) buffer).
End KMeans.
