(** * Consequences for the two trees and the classifier; witnesses *)
From Coq Require Import List Arith Lia Bool Permutation Reals Lra ZArith.
From Flocq Require Import Core BinarySingleNaN.
From Verif Require Import Base BaseLemmas Num NumF NumOrd Linalg LinalgR Euclid Spec_Calc CalcR Model_KNN Spec_KNN
  Proof_KNearest Proof_Tree Proof_TreeKD Proof_TreeBall Proof_TreeTerm Proof_KNNVote.
Import ListNotations.

Lemma genuine_ext {F} {N : Num F} n D D' idx ds : (forall i, i < n -> D i = D' i) -> genuine n D idx ds -> genuine n D' idx ds.
Proof.
  intros E (A & B & C & M). split; auto. split; auto. split; auto. rewrite C. apply map_ext_in. intros i Hi. apply E. auto.
Qed.
Lemma k_nearest_ext {F} {N : Num F} n k D D' idx ds : (forall i, i < n -> D i = D' i) -> k_nearest n k D idx ds -> k_nearest n k D' idx ds.
Proof.
  intros E (A & B & C). split; [eapply genuine_ext; eauto|]. split; auto. intros i j Hi Hj Hn. rewrite <- !E; auto. now apply A.
Qed.

Lemma rowdist_euclid (data : matrix R) point : mwf data -> length point = mcols data -> forall i, i < nrows data ->
  rowdist data point i = euclid (mcols data) point (nth i (mrows data) []).
Proof. intros W L i Hi. unfold rowdist. apply dist_euclid; auto. now apply row_length. Qed.

Notation eudist data point := (fun i => euclid (mcols data) point (nth i (mrows data) [])).

Lemma brute_real (data : matrix R) point k : mwf data -> length point = mcols data -> 1 <= k <= nrows data ->
  exists idx ds, brute_search (Some data) point k = Ok (idx, ds) /\ k_nearest (nrows data) k (eudist data point) idx ds.
Proof.
  intros W L K. destruct (brute_spec data point k K) as (idx & ds & E & Q); [reflexivity|].
  exists idx, ds. split; auto. eapply k_nearest_ext; [|exact Q]. intros. now apply rowdist_euclid.
Qed.
Lemma brute_b64 (data : matrix B64) point k : finite_data data -> finite_list point -> 1 <= k <= nrows data ->
  exists idx ds, brute_search (Some data) point k = Ok (idx, ds) /\
    k_nearest (nrows data) k (fun i => dist point (nth i (mrows data) [])) idx ds.
Proof. intros Fd Fp K. apply (brute_spec data point k K). intros. now apply dist_nonan. Qed.

Lemma nn_R (data : matrix R) : no_nan_data data.
Proof. intros i j _ _. reflexivity. Qed.
Lemma rd_R (data : matrix R) point i : i < nrows data -> nnan (rowdist data point i) = false.
Proof. reflexivity. Qed.

Section Real.
  Context {G : Type} (B : BinarySplit (F := R) G) (data : matrix R) (point : list R).
  Hypothesis W : mwf data.
  Hypothesis L : length point = mcols data.
  Hypothesis GL : geom_lower B data point.

  Lemma tree_real fuel leafsize t k : 0 < nrows data -> 1 <= k -> tree_build B fuel leafsize data = Some (Ok t) ->
    k <= length (home point t) ->
    exists idx ds, tree_search B (Some (t, data)) point k = Ok (idx, ds) /\ k_nearest (nrows data) k (eudist data point) idx ds.
  Proof.
    intros NE K BT H.
    destruct (built_search_exact B data W (nn_R data) fuel leafsize t point k NE K L (rd_R data point) GL BT H) as (idx & ds & E & Q).
    exists idx, ds. split; auto. eapply k_nearest_ext; [|exact Q]. intros. now apply rowdist_euclid.
  Qed.
  Lemma tree_real_1 fuel leafsize t : 0 < nrows data -> tree_build B fuel leafsize data = Some (Ok t) ->
    exists idx ds, tree_search B (Some (t, data)) point 1 = Ok (idx, ds) /\ k_nearest (nrows data) 1 (eudist data point) idx ds.
  Proof.
    intros NE BT.
    destruct (built_search_nearest B data W (nn_R data) fuel leafsize t point NE L (rd_R data point) GL BT) as (idx & ds & E & Q).
    exists idx, ds. split; auto. eapply k_nearest_ext; [|exact Q]. intros. now apply rowdist_euclid.
  Qed.
  Lemma tree_real_small fuel leafsize k : 1 <= k <= nrows data -> nrows data < leafsize -> 0 < fuel ->
    exists t idx ds, tree_build B fuel leafsize data = Some (Ok t) /\
      tree_search B (Some (t, data)) point k = Ok (idx, ds) /\ k_nearest (nrows data) k (eudist data point) idx ds.
  Proof.
    intros K LS FU. assert (E := small_build B data W (nn_R data) fuel leafsize ltac:(lia) FU).
    eexists. destruct (tree_real fuel leafsize _ k ltac:(lia) ltac:(lia) E) as (idx & ds & E1 & Q).
    - cbn. rewrite seq_length. lia.
    - exists idx, ds. eauto.
  Qed.
End Real.

Lemma fin_nan_B64 (x : B64) : nfinite x = true -> nnan x = false.
Proof. destruct x; cbn; easy. Qed.
Lemma finite_no_nan (data : matrix B64) : mwf data -> finite_data data -> no_nan_data data.
Proof.
  intros W Fd i j Hi Hj. apply fin_nan_B64. apply (Fd i Hi). apply nth_In. rewrite row_length; auto.
Qed.

Section B64.
  Context (data : matrix B64) (point : list B64).
  Hypothesis W : mwf data.
  Hypothesis Fd : finite_data data.
  Hypothesis Fp : finite_list point.
  Hypothesis L : length point = mcols data.
  Let D := fun i => dist point (nth i (mrows data) []).

  Lemma kd_b64 fuel leafsize t k : 0 < nrows data -> 1 <= k -> tree_build kd_split fuel leafsize data = Some (Ok t) ->
    (k = 1 \/ k <= length (home point t)) ->
    exists idx ds, tree_search kd_split (Some (t, data)) point k = Ok (idx, ds) /\ k_nearest (nrows data) k D idx ds.
  Proof.
    intros NE K BT [->|H].
    - apply (built_search_nearest kd_split data W (finite_no_nan data W Fd) fuel leafsize); auto.
      + intros. now apply dist_nonan.
      + now apply kd_geom_lower.
    - apply (built_search_exact kd_split data W (finite_no_nan data W Fd) fuel leafsize); auto.
      + intros. now apply dist_nonan.
      + now apply kd_geom_lower.
  Qed.
End B64.

(** Geometry of built trees. *)
Lemma kd_in_boxes {F} {N : Num F} (data : matrix F) t : geom_ok kd_split data t -> in_boxes data t.
Proof.
  induction t as [c|dim sp g l IHl r IHr]; cbn [geom_ok in_boxes]; auto. intros (D & (rem & mn & mx & E & P & NE & L1 & L2 & Q) & Gl & Gr).
  cbn [bs_build kd_split] in E. inversion E; subst g. split; [|auto]. intros i j Hi Hj. apply Permutation_sym in P.
  destruct (Q i (Permutation_in _ P Hi)) as (_ & A & B). auto.
Qed.
Lemma ball_in_balls (data : matrix R) t : mwf data -> geom_ok ball_split data t -> in_balls data t.
Proof.
  intros W. induction t as [c|dim sp g l IHl r IHr]; cbn [geom_ok in_balls]; auto. intros (D & (rem & mn & mx & E & P & NE & L1 & L2 & Q) & Gl & Gr).
  cbn [bs_build ball_split] in E. rewrite (rmap_ridx _ _ []) in E by (intros i Hi; apply (Q i Hi)). cbn [rbind] in E.
  set (rows := map (fun i => nth i (mrows data) []) rem) in *.
  assert (Lr : forall r, In r rows -> length r = mcols data).
  { intros x Hx. apply in_map_iff in Hx. destruct Hx as (i & <- & Hi). apply row_length; auto. apply (Q i Hi). }
  injection E as <-. split; [|auto]. intros i Hi. apply Permutation_sym in P. pose proof (Permutation_in _ P Hi) as Hr.
  rewrite <- dist_euclid.
  - apply (ball_radius_spec (ball_center data rows (length rem)) rows 0%R). apply (in_map (fun i => nth i (mrows data) [])), Hr.
  - unfold ball_center. rewrite map_length. apply fold_map2_length; auto. apply repeat_length.
  - apply row_length; auto. apply (Q i Hr).
Qed.

(** ** Witnesses in binary64 *)
Definition z1 (l : list Z) : matrix B64 := Mat (map (fun x => [b64_of_Z x]) l) 1.

Section Check.
  Context {G : Type} (B : BinarySplit (F := B64) G).
  Definition check (fuel leafsize : nat) (data : matrix B64) (point : list B64) (k : nat)
      (P : node (F := B64) G -> list nat -> list B64 -> bool) : bool :=
    match tree_build B fuel leafsize data with
    | Some (Ok t) => match tree_search B (Some (t, data)) point k with Ok (idx, ds) => P t idx ds | _ => false end
    | _ => false
    end.
  Lemma check_true fuel leafsize data point k P : check fuel leafsize data point k P = true ->
    exists t idx ds, tree_build B fuel leafsize data = Some (Ok t) /\ tree_search B (Some (t, data)) point k = Ok (idx, ds) /\ P t idx ds = true.
  Proof.
    unfold check. destruct (tree_build B fuel leafsize data) as [[t| |]|]; try discriminate.
    destruct (tree_search B (Some (t, data)) point k) as [[idx ds]| |] eqn:E; try discriminate. intros H. exists t, idx, ds. auto.
  Qed.
End Check.

Definition short3 {G} (t : node (F := B64) G) (idx : list nat) (ds : list B64) : bool := length idx <? 3.
Lemma short3_true {G} (B : BinarySplit (F := B64) G) :
  check B 20 3 (z1 [0; 10; 11]%Z) [b64_of_Z 0] 3 short3 = true ->
  exists fuel t idx ds, tree_build B fuel 3 (z1 [0; 10; 11]%Z) = Some (Ok t) /\
    tree_search B (Some (t, z1 [0; 10; 11]%Z)) [b64_of_Z 0] 3 = Ok (idx, ds) /\ length idx < 3.
Proof.
  intros H. apply check_true in H. destruct H as (t & idx & ds & E1 & E2 & H). exists 20, t, idx, ds. split; auto. split; auto.
  now apply Nat.ltb_lt.
Qed.
Lemma kd_short : exists fuel t idx ds, tree_build kd_split fuel 3 (z1 [0; 10; 11]%Z) = Some (Ok t) /\
    tree_search kd_split (Some (t, z1 [0; 10; 11]%Z)) [b64_of_Z 0] 3 = Ok (idx, ds) /\ length idx < 3.
Proof. apply short3_true. vm_compute. reflexivity. Qed.
Lemma ball_short : exists fuel t idx ds, tree_build ball_split fuel 3 (z1 [0; 10; 11]%Z) = Some (Ok t) /\
    tree_search ball_split (Some (t, z1 [0; 10; 11]%Z)) [b64_of_Z 0] 3 = Ok (idx, ds) /\ length idx < 3.
Proof. apply short3_true. vm_compute. reflexivity. Qed.

Definition wrong_data : matrix B64 :=
  Mat (map (map b64_of_Z) [[0; 0]; [20; 0]; [30; 0]; [-10; 39]; [0; 39]]%Z) 2.
Definition origin2 : list B64 := [b64_of_Z 0; b64_of_Z 0].
Definition misses (t : node (F := B64) (list B64 * list B64)) (idx : list nat) (ds : list B64) : bool :=
  (length idx =? 3) && negb (existsb (Nat.eqb 2) idx) &&
  existsb (fun i => nltb (dist origin2 (nth 2 (mrows wrong_data) [])) (dist origin2 (nth i (mrows wrong_data) []))) idx.
Definition missesb (t : node (F := B64) (list B64 * B64)) (idx : list nat) (ds : list B64) : bool :=
  (length idx =? 3) && negb (existsb (Nat.eqb 2) idx) &&
  existsb (fun i => nltb (dist origin2 (nth 2 (mrows wrong_data) [])) (dist origin2 (nth i (mrows wrong_data) []))) idx.
Lemma misses_prop idx : (length idx =? 3) && negb (existsb (Nat.eqb 2) idx) &&
  existsb (fun i => nltb (dist origin2 (nth 2 (mrows wrong_data) [])) (dist origin2 (nth i (mrows wrong_data) []))) idx = true ->
  length idx = 3 /\ ~ In 2 idx /\ exists i, In i idx /\
    nltb (dist origin2 (nth 2 (mrows wrong_data) [])) (dist origin2 (nth i (mrows wrong_data) [])) = true.
Proof.
  intros H. apply andb_prop in H. destruct H as [H1 H2]. apply andb_prop in H1. destruct H1 as [H0 H1]. apply Nat.eqb_eq in H0.
  split; auto. split.
  - intros Q. apply negb_true_iff in H1. rewrite <- not_true_iff_false in H1. apply H1. apply existsb_exists. exists 2. auto.
  - apply existsb_exists in H2. exact H2.
Qed.
Lemma kd_wrong : exists fuel t idx ds, tree_build kd_split fuel 3 wrong_data = Some (Ok t) /\
    tree_search kd_split (Some (t, wrong_data)) origin2 3 = Ok (idx, ds) /\ length idx = 3 /\ ~ In 2 idx /\
    exists i, In i idx /\ nltb (dist origin2 (nth 2 (mrows wrong_data) [])) (dist origin2 (nth i (mrows wrong_data) [])) = true.
Proof.
  assert (H : check kd_split 20 3 wrong_data origin2 3 misses = true) by (vm_compute; reflexivity).
  apply check_true in H. destruct H as (t & idx & ds & E1 & E2 & H). exists 20, t, idx, ds. split; auto. split; auto.
  apply misses_prop, H.
Qed.
Lemma ball_wrong : exists fuel t idx ds, tree_build ball_split fuel 3 wrong_data = Some (Ok t) /\
    tree_search ball_split (Some (t, wrong_data)) origin2 3 = Ok (idx, ds) /\ length idx = 3 /\ ~ In 2 idx /\
    exists i, In i idx /\ nltb (dist origin2 (nth 2 (mrows wrong_data) [])) (dist origin2 (nth i (mrows wrong_data) [])) = true.
Proof.
  assert (H : check ball_split 20 3 wrong_data origin2 3 missesb = true) by (vm_compute; reflexivity).
  apply check_true in H. destruct H as (t & idx & ds & E1 & E2 & H). exists 20, t, idx, ds. split; auto. split; auto.
  apply misses_prop, H.
Qed.

(** A tree with branches whose home leaf holds two rows. *)
Definition ex_points : matrix B64 := z1 [0; 1; 10; 11; 20]%Z.
Definition two_home {G} (t : node (F := B64) G) (idx : list nat) (ds : list B64) : bool :=
  (2 <=? length (home [b64_of_Z 10] t)) && match t with Branch _ _ _ _ _ => true | _ => false end.
Lemma kd_ex : exists fuel t, tree_build kd_split fuel 3 ex_points = Some (Ok t) /\ 2 <= length (home [b64_of_Z 10] t) /\
  exists dim sp g l r, t = Branch dim sp g l r.
Proof.
  assert (H : check kd_split 20 3 ex_points [b64_of_Z 10] 2 two_home = true) by (vm_compute; reflexivity).
  apply check_true in H. destruct H as (t & idx & ds & E1 & E2 & H). exists 20, t. split; auto.
  apply andb_prop in H. destruct H as [H1 H2]. apply Nat.leb_le in H1. split; auto. destruct t; [discriminate|eauto 6].
Qed.
Lemma ex_points_ok : mwf ex_points /\ finite_data ex_points /\ finite_list [b64_of_Z 10] /\ nrows ex_points = 5.
Proof.
  assert (A : forallb (forallb nfinite) (mrows ex_points) = true) by (vm_compute; reflexivity).
  assert (B : forallb nfinite [b64_of_Z 10] = true) by (vm_compute; reflexivity).
  rewrite forallb_forall in A, B. split; [repeat constructor|]. split; [|split; [exact B|reflexivity]].
  intros i Hi. specialize (A (nth i (mrows ex_points) []) (nth_In _ _ Hi)). now rewrite forallb_forall in A.
Qed.

(** The two adjacent binary64 numbers 1 and 1 + 2^-52: the midpoint rounds to 1. *)
Definition one64 : B64 := b64_of_Z 1.
Definition next64 : B64 := b64_bin (2 ^ 52 + 1) (-52).
Definition adj : matrix B64 := Mat [[one64]; [next64]] 1.
Lemma b64_eq (x y : B64) : B2SF x = B2SF y -> x = y.
Proof. apply B2SF_inj. Qed.
Lemma adj_select fuel : select_split fuel adj [0; 1] [one64] [next64] = None.
Proof.
  induction fuel as [|fuel IH]; [reflexivity|]. cbn [select_split].
  change (argmax (vsub [next64] [one64])) with (Ok (0, nsub next64 one64) : res (nat * B64)). cbn [nth].
  assert (E : nadd one64 (ndiv (nsub next64 one64) (nadd nonev nonev)) = one64) by (apply b64_eq; vm_compute; reflexivity).
  rewrite E. cbn [adj mrows nth filter].
  assert (C1 : nltb one64 one64 = false) by (vm_compute; reflexivity). assert (C2 : nltb next64 one64 = false) by (vm_compute; reflexivity).
  rewrite C1, C2. cbn [negb vset]. exact IH.
Qed.
Lemma adj_diverges {G} (B : BinarySplit (F := B64) G) fuel : tree_build B fuel 2 adj = None.
Proof.
  unfold tree_build.
  assert (D1 : data_min adj = Ok [one64]).
  { unfold data_min. cbn [adj mrows fold_left map2].
    assert (C1 : nltb one64 one64 = false) by (vm_compute; reflexivity). assert (C2 : nltb next64 one64 = false) by (vm_compute; reflexivity).
    rewrite C1, C2. reflexivity. }
  assert (D2 : data_max adj = Ok [next64]).
  { unfold data_max. cbn [adj mrows fold_left map2].
    assert (C1 : nltb one64 one64 = false) by (vm_compute; reflexivity). assert (C2 : nltb one64 next64 = true) by (vm_compute; reflexivity).
    rewrite C1, C2. reflexivity. }
  rewrite D1, D2. destruct fuel as [|fuel]; [reflexivity|]. cbn [split nrows mrows adj length seq Nat.ltb Nat.leb].
  now rewrite adj_select.
Qed.
Lemma adj_ok : mwf adj /\ nrows adj = 2 /\ finite_data adj /\ nltb one64 next64 = true.
Proof.
  assert (A : forallb (forallb nfinite) (mrows adj) = true) by (vm_compute; reflexivity). rewrite forallb_forall in A.
  split; [repeat constructor|]. split; [reflexivity|]. split; [|vm_compute; reflexivity].
  intros i Hi. specialize (A (nth i (mrows adj) []) (nth_In _ _ Hi)). now rewrite forallb_forall in A.
Qed.

(** ** The classifier with brute-force search *)
(** brute_force.rs lines 47-50. *)
Definition brute_build (_ : option (matrix R)) (data : matrix R) : res (option (matrix R)) := Ok (Some data).

Lemma classifier_brute (k : nat) (s0 : option (matrix R)) (t0 : option (list nat)) inputs targets :
  let c := {| knn_k := k; knn_searcher := s0; knn_target := t0 |} in
  1 <= k -> mwf inputs ->
  (nrows inputs <> length targets \/ nrows inputs < k -> knn_train brute_build c inputs targets = (c, Err InvalidData)) /\
  (nrows inputs = length targets -> k <= nrows inputs ->
   exists c', knn_train brute_build c inputs targets = (c', Ok tt) /\
   forall test, mwf test -> mcols test = mcols inputs ->
   exists out, knn_predict (brute_search (F := R)) c' test = Ok out /\
     Forall2 (fun row l => exists idx ds, k_nearest (nrows inputs) k (fun i => euclid (mcols inputs) row (nth i (mrows inputs) [])) idx ds /\
                is_vote (map (fun i => nth i targets 0) idx) l) (mrows test) out).
Proof.
  intros c K W. split; [intros H; now apply train_rejects|]. intros H1 H2.
  exists {| knn_k := k; knn_searcher := Some inputs; knn_target := Some targets |}. split; [exact (train_ok brute_build c inputs targets (Some inputs) H1 H2 eq_refl)|]. intros test Wt Ct.
  assert (Q : forall row, In row (mrows test) -> exists idx ds, brute_search (Some inputs) row k = Ok (idx, ds) /\
     k_nearest (nrows inputs) k (eudist inputs row) idx ds).
  { intros row Hr. apply brute_real; auto. unfold mwf in Wt. rewrite Forall_forall in Wt. rewrite <- Ct. now apply Wt. }
  destruct (predict_spec (F := R) (brute_search (F := R)) {| knn_k := k; knn_searcher := Some inputs; knn_target := Some targets |} targets test eq_refl) as (out & E & P).
  - intros row Hr. destruct (Q row Hr) as (idx & ds & E & (Gn & Hl & _)). exists idx, ds. split; [exact E|]. split.
    + intros ->. cbn in Hl. lia.
    + intros i Hi. rewrite <- H1. now apply Gn.
  - exists out. split; [exact E|].
    assert (R : forall rows out, Forall2 (fun row l => exists idx ds, brute_search (Some inputs) row k = Ok (idx, ds) /\
                 is_vote (map (fun i => nth i targets 0) idx) l) rows out -> incl rows (mrows test) ->
        Forall2 (fun row l => exists idx ds, k_nearest (nrows inputs) k (eudist inputs row) idx ds /\
                is_vote (map (fun i => nth i targets 0) idx) l) rows out).
    { induction 1 as [|row l rows o (idx & ds & E1 & V) Hf IH]; intros IN; constructor.
      - destruct (Q row (IN row (or_introl eq_refl))) as (idx' & ds' & E2 & Kn). rewrite E1 in E2.
        assert (idx = idx') by congruence. assert (ds = ds') by congruence. subst. eauto.
      - apply IH. intros x Hx. apply IN. now right. }
    apply R; [exact P|apply incl_refl].
Qed.

(** ** Forms used by the property file *)
Lemma exact_real {G} (B : BinarySplit (F := R) G) (data : matrix R) (point : list R) :
  mwf data -> length point = mcols data -> 0 < nrows data -> geom_lower B data point ->
  let nearest k idx ds := k_nearest (nrows data) k (fun i => euclid (mcols data) point (nth i (mrows data) [])) idx ds in
  (forall fuel leafsize t k, 1 <= k -> tree_build B fuel leafsize data = Some (Ok t) ->
     k <= length (home point t) ->
     exists idx ds, tree_search B (Some (t, data)) point k = Ok (idx, ds) /\ nearest k idx ds) /\
  (forall fuel leafsize t, tree_build B fuel leafsize data = Some (Ok t) ->
     exists idx ds, tree_search B (Some (t, data)) point 1 = Ok (idx, ds) /\ nearest 1 idx ds) /\
  (forall fuel leafsize k, 1 <= k <= nrows data -> nrows data < leafsize -> 0 < fuel ->
     exists t idx ds, tree_build B fuel leafsize data = Some (Ok t) /\
       tree_search B (Some (t, data)) point k = Ok (idx, ds) /\ nearest k idx ds).
Proof.
  intros W L NE GL. split; [|split].
  - intros. eapply tree_real; eauto.
  - intros. eapply tree_real_1; eauto.
  - intros. now apply tree_real_small.
Qed.
Lemma kd_exact_real (data : matrix R) (point : list R) :
  mwf data -> length point = mcols data -> 0 < nrows data ->
  let nearest k idx ds := k_nearest (nrows data) k (fun i => euclid (mcols data) point (nth i (mrows data) [])) idx ds in
  (forall fuel leafsize t k, 1 <= k -> tree_build kd_split fuel leafsize data = Some (Ok t) ->
     k <= length (home point t) ->
     exists idx ds, tree_search kd_split (Some (t, data)) point k = Ok (idx, ds) /\ nearest k idx ds) /\
  (forall fuel leafsize t, tree_build kd_split fuel leafsize data = Some (Ok t) ->
     exists idx ds, tree_search kd_split (Some (t, data)) point 1 = Ok (idx, ds) /\ nearest 1 idx ds) /\
  (forall fuel leafsize k, 1 <= k <= nrows data -> nrows data < leafsize -> 0 < fuel ->
     exists t idx ds, tree_build kd_split fuel leafsize data = Some (Ok t) /\
       tree_search kd_split (Some (t, data)) point k = Ok (idx, ds) /\ nearest k idx ds).
Proof. intros W L NE. apply exact_real; auto. apply kd_geom_lower; auto; [intros i Hi x Hx|intros x Hx]; reflexivity. Qed.
Lemma ball_exact_real (data : matrix R) (point : list R) :
  mwf data -> length point = mcols data -> 0 < nrows data ->
  let nearest k idx ds := k_nearest (nrows data) k (fun i => euclid (mcols data) point (nth i (mrows data) [])) idx ds in
  (forall fuel leafsize t k, 1 <= k -> tree_build ball_split fuel leafsize data = Some (Ok t) ->
     k <= length (home point t) ->
     exists idx ds, tree_search ball_split (Some (t, data)) point k = Ok (idx, ds) /\ nearest k idx ds) /\
  (forall fuel leafsize t, tree_build ball_split fuel leafsize data = Some (Ok t) ->
     exists idx ds, tree_search ball_split (Some (t, data)) point 1 = Ok (idx, ds) /\ nearest 1 idx ds) /\
  (forall fuel leafsize k, 1 <= k <= nrows data -> nrows data < leafsize -> 0 < fuel ->
     exists t idx ds, tree_build ball_split fuel leafsize data = Some (Ok t) /\
       tree_search ball_split (Some (t, data)) point k = Ok (idx, ds) /\ nearest k idx ds).
Proof. intros W L NE. apply exact_real; auto. now apply ball_geom_lower. Qed.

Lemma kd_sound {F} {N : Num F} {O : NumOrd F} (data : matrix F) fuel leafsize t :
  mwf data -> no_nan_data data -> 0 < nrows data -> tree_build kd_split fuel leafsize data = Some (Ok t) ->
  Permutation (stored t) (seq 0 (nrows data)) /\
  (forall c, In c (leaves t) -> c <> [] /\ length c < leafsize) /\ in_boxes data t.
Proof.
  intros W NN NE E. destruct (build_spec kd_split data W NN fuel leafsize t NE E) as (A & B & C). split; auto. split; auto. now apply kd_in_boxes.
Qed.
Lemma ball_sound (data : matrix R) fuel leafsize t :
  mwf data -> 0 < nrows data -> tree_build ball_split fuel leafsize data = Some (Ok t) ->
  Permutation (stored t) (seq 0 (nrows data)) /\
  (forall c, In c (leaves t) -> c <> [] /\ length c < leafsize) /\ in_balls data t.
Proof.
  intros W NE E. destruct (build_spec ball_split data W (nn_R data) fuel leafsize t NE E) as (A & B & C). split; auto. split; auto. now apply ball_in_balls.
Qed.
Lemma finishes_iff (data : matrix R) : 0 < mcols data -> mwf data -> 0 < nrows data -> forall leafsize,
  ((exists fuel t, tree_build kd_split fuel leafsize data = Some (Ok t)) <->
     (forall S m, equal_rows data S m -> 0 < m -> m < leafsize)) /\
  ((exists fuel t, tree_build ball_split fuel leafsize data = Some (Ok t)) <->
     (forall S m, equal_rows data S m -> 0 < m -> m < leafsize)).
Proof.
  intros C W NE leafsize. split; apply build_finishes_iff; auto; [apply kd_total|apply ball_total].
Qed.
Lemma equal_rows_diverge (data : matrix B64) leafsize S m :
  0 < mcols data -> mwf data -> no_nan_data data -> equal_rows data S m -> 0 < m -> leafsize <= m ->
  forall fuel, tree_build kd_split fuel leafsize data = None /\ tree_build ball_split fuel leafsize data = None.
Proof.
  intros C W NN E M LS fuel. split; eapply build_diverges; eauto; [apply kd_total|apply ball_total].
Qed.

Lemma ex_genuine : mwf ex_points /\ no_nan_data ex_points /\
  (forall i, i < nrows ex_points -> nnan (dist [b64_of_Z 10] (nth i (mrows ex_points) [])) = false) /\
  exists fuel t, tree_build kd_split fuel 3 ex_points = Some (Ok t).
Proof.
  destruct ex_points_ok as (A & B & C & _). split; auto. split; [now apply finite_no_nan|]. split.
  - intros. now apply (dist_nonan ex_points).
  - destruct kd_ex as (f & t & E & _). eauto.
Qed.
Lemma ex_sound : mwf ex_points /\ no_nan_data ex_points /\ 0 < nrows ex_points /\
  exists fuel t, tree_build kd_split fuel 3 ex_points = Some (Ok t).
Proof. destruct ex_genuine as (A & B & _ & D). split; auto. split; auto. split; auto. cbn. lia. Qed.

Definition real_points : matrix R := Mat [[0%R]; [1%R]; [3%R]] 1.
Lemma real_ex : 0 < mcols real_points /\ mwf real_points /\ 0 < nrows real_points /\
  forall S m, equal_rows real_points S m -> 0 < m -> m < 2.
Proof.
  split; [cbn; lia|]. split; [repeat constructor|]. split; [cbn; lia|].
  intros Sx m (ND & <- & R & E) _. destruct Sx as [|a [|b Sx]]; cbn; try lia. exfalso.
  assert (a <> b). { intros ->. inversion ND as [|? ? N _]. apply N. now left. }
  pose proof (R a (or_introl eq_refl)) as Ra. pose proof (R b (or_intror (or_introl eq_refl))) as Rb. unfold nrows in Ra, Rb.
  specialize (E a b (or_introl eq_refl) (or_intror (or_introl eq_refl))). cbn [real_points mrows length] in *.
  destruct a as [|[|[|a]]], b as [|[|[|b]]]; try lia; cbn [nth] in E; injection E as E; lra.
Qed.
Lemma real_ex_gen {G} (B : BinarySplit (F := R) G) : bs_total B real_points ->
  exists fuel t, tree_build B fuel 2 real_points = Some (Ok t) /\ ~ (exists c, t = Leaf c).
Proof.
  intros BT. destruct real_ex as (C & W & NE & M).
  destruct (proj2 (build_finishes_iff B real_points BT C W 2 NE) M) as (fuel & t & E). exists fuel, t. split; auto.
  intros (c & ->). destruct (build_spec B real_points W (nn_R _) fuel 2 _ NE E) as (P & L & _).
  destruct (L c (or_introl eq_refl)) as [_ Lc]. apply Permutation_length in P. cbn in P. lia.
Qed.
Lemma real_ex_kd : exists fuel t, tree_build kd_split fuel 2 real_points = Some (Ok t) /\ ~ (exists c, t = Leaf c).
Proof. apply real_ex_gen, kd_total. Qed.
Lemma real_ex_ball : exists fuel t, tree_build ball_split fuel 2 real_points = Some (Ok t) /\ ~ (exists c, t = Leaf c).
Proof. apply real_ex_gen, ball_total. Qed.

Lemma equal_ex : equal_rows (z1 [5; 7; 5]%Z) [0; 2] 2 /\ mwf (z1 [5; 7; 5]%Z) /\ no_nan_data (z1 [5; 7; 5]%Z).
Proof.
  split.
  - split; [repeat constructor; cbn; intuition lia|]. split; [reflexivity|]. split.
    + intros i [<-|[<-|[]]]; cbn; lia.
    + intros i j [<-|[<-|[]]] [<-|[<-|[]]]; reflexivity.
  - split; [repeat constructor|]. intros i j Hi Hj. cbn in Hj. assert (j = 0) by lia. subst j. unfold nrows in Hi. cbn in Hi.
    destruct i as [|[|[|i]]]; try lia; vm_compute; reflexivity.
Qed.

Lemma predict_untrained {F S} (s_search : S -> list F -> nat -> res (list nat * list F)) (c : KNNClassifier S) (inputs : matrix F) :
  knn_target _ c = None -> knn_predict s_search c inputs = Err UntrainedModel.
Proof. unfold knn_predict. now intros ->. Qed.
Lemma classifier_ex : let data := Mat [[1%R; 2%R]; [3%R; 4%R]; [0%R; 0%R]] 2 in
  1 <= 3 /\ mwf data /\ nrows data = length [7; 4; 7] /\ 3 <= nrows data /\ is_vote [7; 4; 7] 7 /\ is_vote [7; 4] 4.
Proof.
  split; [lia|]. split; [repeat constructor|]. split; [reflexivity|]. split; [cbn; lia|].
  split; (split; [cbn; auto|intros l'; cbn [count_occ]; repeat (destruct Nat.eq_dec; try lia); cbn [In]; lia]).
Qed.

(** One neighbour: the rounding of the distance to a ball, and its overflow, hide the nearest row. *)
Definition far_data : matrix B64 :=
  Mat (map (map b64_of_Z) [[-2 ^ 57; 0]; [-17; -1]; [0; 0]; [2 ^ 57; 9939310170163096]]%Z) 2.
Definition far_query : list B64 := [b64_of_Z (-1); b64_of_Z (-1)].
Definition huge_data : matrix B64 := z1 [-2 ^ 600; -1000; 0; 2 ^ 600]%Z.
Definition row_at {G} (d : B64) (t : node (F := B64) G) (idx : list nat) (ds : list B64) : bool :=
  match idx, ds with [i], [x] => (i =? 1) && neqb x d | _, _ => false end.
Lemma row_at_prop {G} d (t : node (F := B64) G) idx ds : row_at d t idx ds = true -> exists x, idx = [1] /\ ds = [x] /\ neqb x d = true.
Proof.
  unfold row_at. destruct idx as [|i [|]], ds as [|x [|]]; try discriminate. intros H. apply andb_prop in H. destruct H as [H1 H2].
  apply Nat.eqb_eq in H1. subst i. exists x. auto.
Qed.
Lemma ball_rounding : exists fuel t x, tree_build ball_split fuel 2 far_data = Some (Ok t) /\
  tree_search ball_split (Some (t, far_data)) far_query 1 = Ok ([1], [x]) /\ neqb x (b64_of_Z 16) = true /\
  nltb (dist far_query (nth 2 (mrows far_data) [])) (b64_of_Z 2) = true.
Proof.
  assert (H : check ball_split 20 2 far_data far_query 1 (row_at (b64_of_Z 16)) = true) by (vm_compute; reflexivity).
  apply check_true in H. destruct H as (t & idx & ds & E1 & E2 & H). apply row_at_prop in H. destruct H as (x & -> & -> & H).
  exists 20, t, x. split; [exact E1|]. split; [exact E2|]. split; [exact H|]. vm_compute. reflexivity.
Qed.
Lemma ball_overflow : exists fuel t x, tree_build ball_split fuel 2 huge_data = Some (Ok t) /\
  tree_search ball_split (Some (t, huge_data)) [b64_of_Z (-1)] 1 = Ok ([1], [x]) /\ neqb x (b64_of_Z 999) = true /\
  neqb (dist [b64_of_Z (-1)] (nth 2 (mrows huge_data) [])) (b64_of_Z 1) = true.
Proof.
  assert (H : check ball_split 20 2 huge_data [b64_of_Z (-1)] 1 (row_at (b64_of_Z 999)) = true) by (vm_compute; reflexivity).
  apply check_true in H. destruct H as (t & idx & ds & E1 & E2 & H). apply row_at_prop in H. destruct H as (x & -> & -> & H).
  exists 20, t, x. split; [exact E1|]. split; [exact E2|]. split; [exact H|]. vm_compute. reflexivity.
Qed.
