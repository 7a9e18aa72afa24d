(** * Model of [src/learning/naive_bayes.rs] *)
From Coq Require Import List Arith Bool.
From Verif Require Import Base Num NumFn Linalg Model_KMeans.
Import ListNotations.

Section NB.
  Context {F : Type} {N : Num F} {Fn : NumFn F}.

  (** The literal 2.0 (naive_bayes.rs lines 293, 343). *)
  Definition two : F := nofnat 2.
  (** The literal 0.5 (naive_bayes.rs lines 293, 301). *)
  Definition half : F := ndiv nonev two.

  (** [Matrix::sum_rows] of [rulinalg] (naive_bayes.rs lines 344, 415): one sum per column. *)
  Definition col_sums (m : matrix F) : list F := map (fun j => vsum (col m j)) (seq 0 (mcols m)).
  (** [Matrix::zeros] of [rulinalg] (naive_bayes.rs lines 260, 334, 407). *)
  Definition mzeros (r c : nat) : matrix F := Mat (repeat (repeat nzero c) r) c.
  (** Writing a whole row of a matrix. The code writes the entries one by one, at
      [class * features + i] (naive_bayes.rs lines 276-279) or [[class, i]] (lines 348-350, 420-422), where
      [features] is the width of the matrix; [None] is out of bounds. *)
  Definition set_row (m : matrix F) (i : nat) (r : list F) : option (matrix F) :=
    match upd (mrows m) i r with Some rows => Some (Mat rows (mcols m)) | None => None end.

  (** naive_bayes.rs lines 213-227: the trait [Distribution].  [d_update] returns the parameters left behind and the
      returned value. *)
  Record Distribution (P : Type) := {
    d_new : nat -> nat -> P;
    d_update : P -> matrix F -> nat -> P * res unit;
    d_joint : P -> matrix F -> list F -> res (matrix F)
  }.
  Arguments d_new {P}. Arguments d_update {P}. Arguments d_joint {P}.

  (** ** Gaussian *)

  (** naive_bayes.rs lines 236-239. *)
  Record Gauss := { g_theta : matrix F; g_sigma : matrix F }.
  (** naive_bayes.rs lines 265-282. [variance] is an error for fewer than two rows. *)
  Definition gauss_update (p : Gauss) (data : matrix F) (class : nat) : Gauss * res unit :=
    if nrows data <? 2 then (p, Err InvalidData)
    else
      match set_row (g_theta p) class (col_mean data), set_row (g_sigma p) class (col_var data) with
      | Some t, Some s => ({| g_theta := t; g_sigma := s |}, Ok tt)
      | _, _ => (p, Panic)
      end.
  (** naive_bayes.rs lines 291-304, the score of one class for one row [x]; [th], [si] are the rows of class [i]. *)
  Definition gauss_score (prior : F) (th si x : list F) : F :=
    let joint_i := nln prior in
    let n_ij := nmul (nopp half) (vsum (map (fun s => nln (nmul (nmul s two) npi)) si)) in
    let r_ij := vsum (map2 ndiv (map (fun d => nmul d d) (vsub x th)) si) in
    nadd (nadd (nmul (nopp r_ij) half) n_ij) joint_i.
  (** naive_bayes.rs lines 284-307. *)
  Definition gauss_joint (p : Gauss) (data : matrix F) (prior : list F) : res (matrix F) :=
    rassert ((length prior <=? nrows (g_theta p)) && (length prior <=? nrows (g_sigma p)) && ((length prior =? 0) || (mcols data =? mcols (g_theta p))))
      (Ok (Mat (map (fun x => map (fun i =>
                 gauss_score (nth i prior nzero) (nth i (mrows (g_theta p)) []) (nth i (mrows (g_sigma p)) []) x) (seq 0 (length prior)))
               (mrows data)) (length prior))).
  (** naive_bayes.rs lines 257-308. *)
  Definition Gaussian : Distribution Gauss :=
    {| d_new := fun classes features => {| g_theta := mzeros classes features; g_sigma := mzeros classes features |};
       d_update := gauss_update; d_joint := gauss_joint |}.

  (** ** Bernoulli *)

  (** naive_bayes.rs lines 317-320 and 390-393 ([pseudo_count] is always 1). *)
  Record Smooth := { s_log_probs : matrix F }.
  (** naive_bayes.rs lines 339-354 and 412-425: a row of [log_probs] is overwritten. *)
  Definition smooth_set (p : Smooth) (class : nat) (r : list F) : Smooth * res unit :=
    match set_row (s_log_probs p) class r with
    | Some l => ({| s_log_probs := l |}, Ok tt)
    | None => (p, Panic)
    end.
  (** naive_bayes.rs lines 339-354. *)
  Definition bernoulli_update (p : Smooth) (data : matrix F) (class : nat) : Smooth * res unit :=
    let pseudo_cc := nadd (nofnat (nrows data)) (nmul two nonev) in
    let pseudo_fc := map (fun s => nadd s nonev) (col_sums data) in
    smooth_set p class (map (fun f => nsub (nln f) (nln pseudo_cc)) pseudo_fc).
  (** naive_bayes.rs lines 356-381, one class and row: [data * (log_probs - neg_prob)^T] plus the class row. *)
  Definition bernoulli_score (prior : F) (lp x : list F) : F :=
    let neg := map (fun l => nln (nsub nonev (nexp l))) lp in
    nadd (dot x (vsub lp neg)) (nadd (nln prior) (vsum neg)).
  (** The shapes asserted in naive_bayes.rs lines 364, 375 and 380. *)
  Definition smooth_joint (score : F -> list F -> list F -> F) (p : Smooth) (data : matrix F) (prior : list F) : res (matrix F) :=
    rassert ((mcols data =? mcols (s_log_probs p)) && (length prior =? nrows (s_log_probs p)))
      (Ok (Mat (map (fun x => map (fun i => score (nth i prior nzero) (nth i (mrows (s_log_probs p)) []) x) (seq 0 (length prior)))
               (mrows data)) (length prior))).
  (** naive_bayes.rs lines 331-382. *)
  Definition Bernoulli : Distribution Smooth :=
    {| d_new := fun classes features => {| s_log_probs := mzeros classes features |};
       d_update := bernoulli_update; d_joint := smooth_joint bernoulli_score |}.

  (** ** Multinomial *)

  (** naive_bayes.rs lines 412-425. *)
  Definition multinomial_update (p : Smooth) (data : matrix F) (class : nat) : Smooth * res unit :=
    let pseudo_fc := map (fun s => nadd s nonev) (col_sums data) in
    let pseudo_cc := vsum pseudo_fc in
    smooth_set p class (map (fun f => nsub (nln f) (nln pseudo_cc)) pseudo_fc).
  (** naive_bayes.rs lines 427-443. *)
  Definition multinomial_score (prior : F) (lp x : list F) : F := nadd (dot x lp) (nln prior).
  (** naive_bayes.rs lines 404-444. *)
  Definition Multinomial : Distribution Smooth :=
    {| d_new := fun classes features => {| s_log_probs := mzeros classes features |};
       d_update := multinomial_update; d_joint := smooth_joint multinomial_score |}.

  (** ** The classifier *)
  Section Model.
    Context {P : Type} (D : Distribution P).

    (** naive_bayes.rs lines 51-57. *)
    Record NaiveBayes := {
      nb_distr : option P;
      nb_cluster_count : option nat;
      nb_class_prior : option (list F);
      nb_class_counts : list nat
    }.
    (** naive_bayes.rs lines 71-78. *)
    Definition nb_new : NaiveBayes :=
      {| nb_distr := None; nb_cluster_count := None; nb_class_prior := None; nb_class_counts := [] |}.

    (** naive_bayes.rs lines 187-197. *)
    Fixpoint find_class (row : list F) (idx : nat) : res nat :=
      match row with
      | [] => Err InvalidState
      | r :: row' => if neqb r nonev then Ok idx else find_class row' (S idx)
      end.

    (** naive_bayes.rs lines 155-162: the classes of the rows up to the first row without one, and the outcome. *)
    Fixpoint find_classes (rows : list (list F)) : list nat * res unit :=
      match rows with
      | [] => ([], Ok tt)
      | r :: rows' =>
          match find_class r 0 with
          | Ok c => let (cs, o) := find_classes rows' in (c :: cs, o)
          | Err e => ([], Err e)
          | Panic => ([], Panic)
          end
      end.
    (** naive_bayes.rs lines 152 and 161: the rows of each class are counted. *)
    Definition class_counts (k : nat) (cs : list nat) : list nat := map (fun c => length (class_rows cs c)) (seq 0 k).

    (** naive_bayes.rs lines 164-175: classes without rows are skipped. *)
    Fixpoint update_classes (inputs : matrix F) (cs : list nat) (todo : list nat) (p : P) : P * res unit :=
      match todo with
      | [] => (p, Ok tt)
      | c :: todo' =>
          match class_rows cs c with
          | [] => update_classes inputs cs todo' p
          | ids =>
              match select_rows inputs ids with
              | Ok m =>
                  let (p', r) := d_update D p m c in
                  match r with Ok _ => update_classes inputs cs todo' p' | _ => (p', r) end
              | Err e => (p, Err e)
              | Panic => (p, Panic)
              end
          end
      end.

    (** naive_bayes.rs lines 109-112 and 148-185. The new [distr] is stored before anything is checked. *)
    Definition nb_train (m : NaiveBayes) (inputs targets : matrix F) : NaiveBayes * res unit :=
      let k := mcols targets in
      let p := d_new D k (mcols inputs) in
      let (cs, r) := find_classes (mrows targets) in
      match r with
      | Ok _ =>
          let (p', r') := update_classes inputs cs (seq 0 k) p in
          match r' with
          | Ok _ => ({| nb_distr := Some p'; nb_cluster_count := Some k;
                        nb_class_prior := Some (map (fun c => ndiv (nofnat c) (nofnat (nrows inputs))) (class_counts k cs));
                        nb_class_counts := class_counts k cs |}, Ok tt)
          | e => ({| nb_distr := Some p'; nb_cluster_count := nb_cluster_count m; nb_class_prior := nb_class_prior m;
                     nb_class_counts := class_counts k cs |}, e)
          end
      | e => ({| nb_distr := Some p; nb_cluster_count := nb_cluster_count m; nb_class_prior := nb_class_prior m;
                 nb_class_counts := class_counts k cs |}, e)
      end.

    (** naive_bayes.rs lines 138-146. *)
    Definition get_log_probs (m : NaiveBayes) (inputs : matrix F) : res (matrix F) :=
      match nb_distr m, nb_class_prior m with
      | Some p, Some prior => d_joint D p inputs prior
      | _, _ => Err UntrainedModel
      end.
    (** naive_bayes.rs lines 199-209. *)
    Definition get_classes (log_probs : matrix F) : res (list nat) :=
      rmap (fun row => let? p := argmax row in Ok (fst p)) (mrows log_probs).
    (** naive_bayes.rs lines 122-127, one row: [row[c] = 1] panics when [c] is out of range. *)
    Definition one_hot_row (k c : nat) : res (list F) :=
      match upd (repeat nzero k) c nonev with Some r => Ok r | None => Panic end.
    (** naive_bayes.rs lines 115-133. *)
    Definition nb_predict (m : NaiveBayes) (inputs : matrix F) : res (matrix F) :=
      let? lp := get_log_probs m inputs in
      let? cs := get_classes lp in
      match nb_cluster_count m with
      | Some k => let? rows := rmap (one_hot_row k) cs in
                  rassert (length rows =? nrows inputs) (Ok (Mat rows k))
      | None => Err UntrainedModel
      end.
  End Model.
End NB.
Arguments NaiveBayes : clear implicits.
Arguments Gauss : clear implicits.
Arguments Smooth : clear implicits.
