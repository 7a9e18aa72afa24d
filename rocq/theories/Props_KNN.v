(** * C19-C24, C64, C65: nearest neighbours ([src/learning/knn/]) *)
From Coq Require Import List Arith Lia Bool Permutation Reals Lra ZArith.
From Verif Require Import Base Num NumF NumOrd Linalg LinalgR Spec_Calc Model_KNN Spec_KNN
  Proof_KNearest Proof_Tree Proof_TreeKD Proof_TreeBall Proof_TreeTerm Proof_KNNVote Proof_KNNEx.
Import ListNotations.

(** C19: exhaustive search, exact arithmetic. *)
Theorem C19_brute_force : forall (data : matrix R) (point : list R) (k : nat),
  mwf data -> length point = mcols data -> 1 <= k <= nrows data ->
  exists idx ds, brute_search (Some data) point k = Ok (idx, ds) /\
    k_nearest (nrows data) k (fun i => euclid (mcols data) point (nth i (mrows data) [])) idx ds.
Proof. exact brute_real. Qed.
Print Assumptions C19_brute_force.

(** ... and with the rounding of binary64: the [k] rows with the smallest computed distances.
    Overflow of a distance to infinity is allowed. *)
Theorem C19_brute_force_binary64 : forall (data : matrix B64) (point : list B64) (k : nat),
  finite_data data -> finite_list point -> 1 <= k <= nrows data ->
  exists idx ds, brute_search (Some data) point k = Ok (idx, ds) /\
    k_nearest (nrows data) k (fun i => dist point (nth i (mrows data) [])) idx ds.
Proof. exact brute_b64. Qed.
Print Assumptions C19_brute_force_binary64.

Theorem C19_brute_force_bad_k : forall (data : matrix B64) (point : list B64) (k : nat),
  (k = 0 \/ nrows data < k -> brute_search (Some data) point k = Panic) /\
  brute_search (F := B64) None point k = Err UntrainedModel.
Proof. exact (fun data point k => conj (brute_bad_k data point k) eq_refl). Qed.
Print Assumptions C19_brute_force_bad_k.

Example C19_ex : let data := Mat [[1%R; 2%R]; [3%R; 4%R]; [0%R; 0%R]] 2 in
  mwf data /\ length [1%R; 1%R] = mcols data /\ 1 <= 2 <= nrows data.
Proof. split; [repeat constructor|]. cbn. lia. Qed.
Example C19_ex_binary64 : finite_data ex_points /\ finite_list [b64_of_Z 10] /\ nrows ex_points = 5.
Proof. exact (proj2 ex_points_ok). Qed.

(** C20 as stated fails: rows 0, 10, 11, leaf size 3, query 0, k = 3: two rows come back. *)
Theorem C20_refuted_too_few : exists fuel t idx ds,
  tree_build kd_split fuel 3 (z1 [0; 10; 11]%Z) = Some (Ok t) /\
  tree_search kd_split (Some (t, z1 [0; 10; 11]%Z)) [b64_of_Z 0] 3 = Ok (idx, ds) /\ length idx < 3.
Proof. exact kd_short. Qed.
Print Assumptions C20_refuted_too_few.

(** ... and with rows (0,0), (20,0), (30,0), (-10,39), (0,39), leaf size 3, query (0,0), k = 3 the
    number is right but row 2 is missing although a returned row is farther. *)
Theorem C20_refuted_wrong_row : exists fuel t idx ds, tree_build kd_split fuel 3 wrong_data = Some (Ok t) /\
  tree_search kd_split (Some (t, wrong_data)) origin2 3 = Ok (idx, ds) /\ length idx = 3 /\ ~ In 2 idx /\
  exists i, In i idx /\
    nltb (dist origin2 (nth 2 (mrows wrong_data) [])) (dist origin2 (nth i (mrows wrong_data) [])) = true.
Proof. exact kd_wrong. Qed.
Print Assumptions C20_refuted_wrong_row.

(** C64, what does hold: exact whenever the leaf on the query's side holds at least [k] rows, hence
    always for k = 1, and whenever the data fits one leaf. *)
Theorem C64_kdtree_exact : forall (data : matrix R) (point : list R),
  mwf data -> length point = mcols data -> 0 < nrows data ->
  let nearest k idx ds := k_nearest (nrows data) k (fun i => euclid (mcols data) point (nth i (mrows data) [])) idx ds in
  (forall fuel leafsize t k, 1 <= k -> tree_build kd_split fuel leafsize data = Some (Ok t) ->
     k <= length (home point t) ->
     exists idx ds, tree_search kd_split (Some (t, data)) point k = Ok (idx, ds) /\ nearest k idx ds) /\
  (forall fuel leafsize t, tree_build kd_split fuel leafsize data = Some (Ok t) ->
     exists idx ds, tree_search kd_split (Some (t, data)) point 1 = Ok (idx, ds) /\ nearest 1 idx ds) /\
  (forall fuel leafsize k, 1 <= k <= nrows data -> nrows data < leafsize -> 0 < fuel ->
     exists t idx ds, tree_build kd_split fuel leafsize data = Some (Ok t) /\
       tree_search kd_split (Some (t, data)) point k = Ok (idx, ds) /\ nearest k idx ds).
Proof. exact kd_exact_real. Qed.
Print Assumptions C64_kdtree_exact.

(** The same with the rounding of binary64. *)
Theorem C64_kdtree_exact_binary64 : forall (data : matrix B64) (point : list B64),
  mwf data -> finite_data data -> finite_list point -> length point = mcols data ->
  forall fuel leafsize t k, 0 < nrows data -> 1 <= k -> tree_build kd_split fuel leafsize data = Some (Ok t) ->
  k = 1 \/ k <= length (home point t) ->
  exists idx ds, tree_search kd_split (Some (t, data)) point k = Ok (idx, ds) /\
    k_nearest (nrows data) k (fun i => dist point (nth i (mrows data) [])) idx ds.
Proof. exact kd_b64. Qed.
Print Assumptions C64_kdtree_exact_binary64.

Example C64_ex_binary64 : (exists fuel t, tree_build kd_split fuel 3 ex_points = Some (Ok t) /\ 2 <= length (home [b64_of_Z 10] t) /\
  exists dim sp g l r, t = Branch dim sp g l r) /\
  mwf ex_points /\ finite_data ex_points /\ finite_list [b64_of_Z 10] /\ nrows ex_points = 5.
Proof. exact (conj kd_ex ex_points_ok). Qed.
Example C64_ex_kd_real : exists fuel t, tree_build kd_split fuel 2 real_points = Some (Ok t) /\ ~ (exists c, t = Leaf c).
Proof. exact real_ex_kd. Qed.

(** C21: the ball tree. *)
Theorem C21_refuted_too_few : exists fuel t idx ds,
  tree_build ball_split fuel 3 (z1 [0; 10; 11]%Z) = Some (Ok t) /\
  tree_search ball_split (Some (t, z1 [0; 10; 11]%Z)) [b64_of_Z 0] 3 = Ok (idx, ds) /\ length idx < 3.
Proof. exact ball_short. Qed.
Print Assumptions C21_refuted_too_few.

Theorem C21_refuted_wrong_row : exists fuel t idx ds, tree_build ball_split fuel 3 wrong_data = Some (Ok t) /\
  tree_search ball_split (Some (t, wrong_data)) origin2 3 = Ok (idx, ds) /\ length idx = 3 /\ ~ In 2 idx /\
  exists i, In i idx /\
    nltb (dist origin2 (nth 2 (mrows wrong_data) [])) (dist origin2 (nth i (mrows wrong_data) [])) = true.
Proof. exact ball_wrong. Qed.
Print Assumptions C21_refuted_wrong_row.

(** In binary64 the ball tree can miss the nearest row even for k = 1.  With rows (-2^57, 0), (-17, -1),
    (0, 0), (2^57, 9939310170163096), leaf size 2 and the query (-1, -1) it returns the row at distance
    16 although one at distance sqrt 2 is there: the distance to the centre of a ball is rounded ... *)
Theorem C21_refuted_rounding : exists fuel t x, tree_build ball_split fuel 2 far_data = Some (Ok t) /\
  tree_search ball_split (Some (t, far_data)) far_query 1 = Ok ([1], [x]) /\ neqb x (b64_of_Z 16) = true /\
  nltb (dist far_query (nth 2 (mrows far_data) [])) (b64_of_Z 2) = true.
Proof. exact ball_rounding. Qed.
Print Assumptions C21_refuted_rounding.

(** ... and when it overflows, the branch is skipped (infinity minus infinity is no number): rows
    -2^600, -1000, 0, 2^600 and the query -1 give the row at distance 999, not the one at distance 1. *)
Theorem C21_refuted_overflow : exists fuel t x, tree_build ball_split fuel 2 huge_data = Some (Ok t) /\
  tree_search ball_split (Some (t, huge_data)) [b64_of_Z (-1)] 1 = Ok ([1], [x]) /\ neqb x (b64_of_Z 999) = true /\
  neqb (dist [b64_of_Z (-1)] (nth 2 (mrows huge_data) [])) (b64_of_Z 1) = true.
Proof. exact ball_overflow. Qed.
Print Assumptions C21_refuted_overflow.

Theorem C64_balltree_exact : forall (data : matrix R) (point : list R),
  mwf data -> length point = mcols data -> 0 < nrows data ->
  let nearest k idx ds := k_nearest (nrows data) k (fun i => euclid (mcols data) point (nth i (mrows data) [])) idx ds in
  (forall fuel leafsize t k, 1 <= k -> tree_build ball_split fuel leafsize data = Some (Ok t) ->
     k <= length (home point t) ->
     exists idx ds, tree_search ball_split (Some (t, data)) point k = Ok (idx, ds) /\ nearest k idx ds) /\
  (forall fuel leafsize t, tree_build ball_split fuel leafsize data = Some (Ok t) ->
     exists idx ds, tree_search ball_split (Some (t, data)) point 1 = Ok (idx, ds) /\ nearest 1 idx ds) /\
  (forall fuel leafsize k, 1 <= k <= nrows data -> nrows data < leafsize -> 0 < fuel ->
     exists t idx ds, tree_build ball_split fuel leafsize data = Some (Ok t) /\
       tree_search ball_split (Some (t, data)) point k = Ok (idx, ds) /\ nearest k idx ds).
Proof. exact ball_exact_real. Qed.
Print Assumptions C64_balltree_exact.

Example C64_ex_ball_real : exists fuel t, tree_build ball_split fuel 2 real_points = Some (Ok t) /\ ~ (exists c, t = Leaf c).
Proof. exact real_ex_ball. Qed.

(** C22: in binary64 as in exact arithmetic, for either tree. *)
Theorem C22_tree_results_genuine : forall (F : Type) (N : Num F) (O : NumOrd F) (G : Type) (B : BinarySplit G) (data : matrix F),
  mwf data -> no_nan_data data ->
  forall fuel leafsize t point k, 0 < nrows data -> 1 <= k -> length point = mcols data ->
  (forall i, i < nrows data -> nnan (dist point (nth i (mrows data) [])) = false) ->
  tree_build B fuel leafsize data = Some (Ok t) ->
  exists idx ds, tree_search B (Some (t, data)) point k = Ok (idx, ds) /\
    genuine (nrows data) (fun i => dist point (nth i (mrows data) [])) idx ds /\ 1 <= length idx <= k.
Proof. exact @built_search_genuine. Qed.
Print Assumptions C22_tree_results_genuine.

(** The comparison laws assumed above hold in both number systems. *)
Theorem C22_number_systems : NumOrd R /\ NumOrd B64.
Proof. exact (conj NumOrdR NumOrdB64). Qed.
Print Assumptions C22_number_systems.

Example C22_ex : mwf ex_points /\ no_nan_data ex_points /\
  (forall i, i < nrows ex_points -> nnan (dist [b64_of_Z 10] (nth i (mrows ex_points) [])) = false) /\
  exists fuel t, tree_build kd_split fuel 3 ex_points = Some (Ok t).
Proof. exact ex_genuine. Qed.

(** C23: whatever build returns holds every row once, in small non-empty leaves, inside the recorded
    box (KD) or ball (Ball). *)
Theorem C23_built_trees_are_sound : forall (F : Type) (N : Num F) (O : NumOrd F) (data : matrix F) fuel leafsize t,
  mwf data -> no_nan_data data -> 0 < nrows data -> tree_build kd_split fuel leafsize data = Some (Ok t) ->
  Permutation (stored t) (seq 0 (nrows data)) /\
  (forall c, In c (leaves t) -> c <> [] /\ length c < leafsize) /\ in_boxes data t.
Proof. exact @kd_sound. Qed.
Print Assumptions C23_built_trees_are_sound.

Theorem C23_built_ball_trees_are_sound : forall (data : matrix R) fuel leafsize t,
  mwf data -> 0 < nrows data -> tree_build ball_split fuel leafsize data = Some (Ok t) ->
  Permutation (stored t) (seq 0 (nrows data)) /\
  (forall c, In c (leaves t) -> c <> [] /\ length c < leafsize) /\ in_balls data t.
Proof. exact ball_sound. Qed.
Print Assumptions C23_built_ball_trees_are_sound.

(** C65: in exact arithmetic build finishes exactly when there are fewer than [leafsize] copies of every
    row (so never with a leaf size of 0 or 1). *)
Theorem C65_termination_characterised : forall (data : matrix R), 0 < mcols data -> mwf data -> 0 < nrows data ->
  forall leafsize,
  ((exists fuel t, tree_build kd_split fuel leafsize data = Some (Ok t)) <->
     (forall S m, equal_rows data S m -> 0 < m -> m < leafsize)) /\
  ((exists fuel t, tree_build ball_split fuel leafsize data = Some (Ok t)) <->
     (forall S m, equal_rows data S m -> 0 < m -> m < leafsize)).
Proof. exact finishes_iff. Qed.
Print Assumptions C65_termination_characterised.

(** So C23 as stated fails: [leafsize] equal rows keep the construction busy for ever, in binary64 too. *)
Theorem C65_equal_rows_loop : forall (data : matrix B64) leafsize S m,
  0 < mcols data -> mwf data -> no_nan_data data -> equal_rows data S m -> 0 < m -> leafsize <= m ->
  forall fuel, tree_build kd_split fuel leafsize data = None /\ tree_build ball_split fuel leafsize data = None.
Proof. exact equal_rows_diverge. Qed.
Print Assumptions C65_equal_rows_loop.

(** In binary64 even two different rows can do it: 1 and the next larger number, leaf size 2. *)
Theorem C23_refuted_adjacent_numbers :
  (mwf adj /\ nrows adj = 2 /\ finite_data adj /\ nltb one64 next64 = true) /\
  forall fuel, tree_build kd_split fuel 2 adj = None /\ tree_build ball_split fuel 2 adj = None.
Proof. exact (conj adj_ok (fun fuel => conj (adj_diverges kd_split fuel) (adj_diverges ball_split fuel))). Qed.
Print Assumptions C23_refuted_adjacent_numbers.

Example C23_ex : mwf ex_points /\ no_nan_data ex_points /\ 0 < nrows ex_points /\
  exists fuel t, tree_build kd_split fuel 3 ex_points = Some (Ok t).
Proof. exact ex_sound. Qed.
Example C65_ex_finishes : 0 < mcols real_points /\ mwf real_points /\ 0 < nrows real_points /\
  forall S m, equal_rows real_points S m -> 0 < m -> m < 2.
Proof. exact real_ex. Qed.
Example C65_ex_equal_rows : equal_rows (z1 [5; 7; 5]%Z) [0; 2] 2 /\ mwf (z1 [5; 7; 5]%Z) /\ no_nan_data (z1 [5; 7; 5]%Z).
Proof. exact equal_ex. Qed.

(** C24: the classifier with exhaustive search. *)
Theorem C24_classifier_majority : forall (k : nat) (s0 : option (matrix R)) (t0 : option (list nat))
    (inputs : matrix R) (targets : list nat),
  let c := {| knn_k := k; knn_searcher := s0; knn_target := t0 |} in
  1 <= k -> mwf inputs ->
  (nrows inputs <> length targets \/ nrows inputs < k ->
     knn_train brute_build c inputs targets = (c, Err InvalidData)) /\
  (nrows inputs = length targets -> k <= nrows inputs ->
   exists c', knn_train brute_build c inputs targets = (c', Ok tt) /\
   forall test, mwf test -> mcols test = mcols inputs ->
   exists out, knn_predict (brute_search (F := R)) c' test = Ok out /\
     Forall2 (fun row l => exists idx ds,
                k_nearest (nrows inputs) k (fun i => euclid (mcols inputs) row (nth i (mrows inputs) [])) idx ds /\
                is_vote (map (fun i => nth i targets 0) idx) l) (mrows test) out).
Proof. exact classifier_brute. Qed.
Print Assumptions C24_classifier_majority.

(** Whatever the searcher, the answer is the vote among the rows it returns; and an untrained
    classifier refuses. *)
Theorem C24_vote_over_any_searcher : forall (F S : Type) (s_search : S -> list F -> nat -> res (list nat * list F))
    (c : KNNClassifier S) target (inputs : matrix F),
  knn_target _ c = Some target ->
  (forall row, In row (mrows inputs) -> exists idx ds, s_search (knn_searcher _ c) row (knn_k _ c) = Ok (idx, ds) /\
      idx <> [] /\ (forall i, In i idx -> i < length target)) ->
  exists out, knn_predict s_search c inputs = Ok out /\
    Forall2 (fun row l => exists idx ds, s_search (knn_searcher _ c) row (knn_k _ c) = Ok (idx, ds) /\
               is_vote (map (fun i => nth i target 0) idx) l) (mrows inputs) out.
Proof. exact @predict_spec. Qed.
Print Assumptions C24_vote_over_any_searcher.

Theorem C24_untrained : forall (F S : Type) (s_search : S -> list F -> nat -> res (list nat * list F))
    (c : KNNClassifier S) (inputs : matrix F),
  knn_target _ c = None -> knn_predict s_search c inputs = Err UntrainedModel.
Proof. exact @predict_untrained. Qed.
Print Assumptions C24_untrained.

Example C24_ex : let data := Mat [[1%R; 2%R]; [3%R; 4%R]; [0%R; 0%R]] 2 in
  1 <= 3 /\ mwf data /\ nrows data = length [7; 4; 7] /\ 3 <= nrows data /\ is_vote [7; 4; 7] 7 /\ is_vote [7; 4] 4.
Proof. exact classifier_ex. Qed.
