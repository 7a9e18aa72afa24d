(** * C29-C32, C68, C69, C98: k-means ([src/learning/k_means.rs]) *)
From Coq Require Import List Arith Lia Bool Permutation Reals Lra ZArith.
From Verif Require Import Base Num NumX NumF NumOrd Linalg LinalgR Spec_Calc Spec_KNN Model_KMeans Spec_KMeans Spec_Transforms
  Proof_KMeans Proof_KMeans2 Proof_KMeansEx Proof_KMeans3 Proof_KPPErr Spec_KMStop Proof_KMStop.
Import ListNotations.

(** C29: each row gets the first closest centroid; exact arithmetic. *)
Theorem C29_closest_centroid : forall (m : KMeans R) (C M : matrix R),
  km_centroids m = Some C -> mwf C -> mwf M -> mcols C = mcols M -> 0 < nrows C ->
  exists idx, km_predict m M = Ok idx /\ length idx = nrows M /\
    forall i, i < nrows M -> is_closest_R (nrows C) (fun c => euclid (mcols M) (nth i (mrows M) []) (nth c (mrows C) [])) (nth i idx 0).
Proof. exact predict_real. Qed.
Print Assumptions C29_closest_centroid.
(** ... and in binary64, for the computed squared distances when none is NaN. *)
Theorem C29_closest_centroid_binary64 : forall (m : KMeans B64) (C M : matrix B64),
  km_centroids m = Some C -> mcols C = mcols M -> 0 < nrows C ->
  (forall x i, In x (mrows M) -> i < nrows C -> nnan (sqdist (nth i (mrows C) []) x) = false) ->
  exists idx, km_predict m M = Ok idx /\ length idx = nrows M /\
    forall i, i < nrows M -> is_closest (nrows C) (fun c => sqdist (nth c (mrows C) []) (nth i (mrows M) [])) (nth i idx 0).
Proof. exact predict_gen. Qed.
Print Assumptions C29_closest_centroid_binary64.
Theorem C29_untrained_or_wrong_width : forall (m : KMeans B64) (M : matrix B64),
  (km_centroids m = None -> km_predict m M = Err UntrainedModel) /\
  (forall C, km_centroids m = Some C -> 0 < nrows M -> mcols C <> mcols M -> km_predict m M = Panic).
Proof. exact predict_bad. Qed.
Print Assumptions C29_untrained_or_wrong_width.
Example C29_ex : let C := Mat [[0%R]; [10%R]] 1 in let M := Mat [[1%R]; [7%R]] 1 in
  mwf C /\ mwf M /\ mcols C = mcols M /\ 0 < nrows C.
Proof. cbn. repeat split; try (repeat constructor). Qed.
Example C29_ex_binary64 : km_predict {| km_iters := 1; km_k := 2; km_centroids := Some (col1 [0; 10]%Z) |} (col1 [1; 7; 5]%Z) = Ok [0; 1; 0].
Proof. vm_compute. reflexivity. Qed.

(** C30: one iteration. [a], [a'] are the assignments of two successive iterations. *)
Theorem C30_step_never_increases : forall (M C C' C'' : matrix R) k a a',
  lloyd_step_spec M k a C C' -> lloyd_step_spec M k a' C' C'' ->
  (objective M C' a' <= objective M C' a /\ objective M C' a <= objective M C a)%R.
Proof. exact step_decreases. Qed.
Print Assumptions C30_step_never_increases.
(** The iterations of [train] are such steps, as long as no centroid loses all its rows (arithmetic
    with NaN: exact on numbers). *)
Theorem C30_train_makes_steps : forall (tol : R) (m : KMeans X) (M C0 : matrix R),
  mwf M -> mwf C0 -> mcols C0 = mcols M -> nrows C0 = km_k m -> 0 < km_k m <= nrows M ->
  exists m' C l, km_train (Fin tol) (Ok (inj C0)) m (inj M) = (m', Ok tt) /\ km_centroids m' = Some C /\
    length l <= km_iters m /\ lloyd_run M (km_k m) C0 l /\
    (C = inj (last_centres C0 l) \/ exists a C2, lloyd_step_spec M (km_k m) a (last_centres C0 l) C2 /\ ~ nonempty a (km_k m)).
Proof. exact train_run_X. Qed.
Print Assumptions C30_train_makes_steps.
(** Hence the trained centroids are at least as good as the initial ones with any assignment. *)
Theorem C30_train_never_increases : forall (M : matrix R) k C0 l, lloyd_run M k C0 l ->
  forall a0 a C2, length a0 = nrows M -> Forall (fun c => c < k) a0 ->
  lloyd_step_spec M k a (last_centres C0 l) C2 ->
  (objective M (last_centres C0 l) a <= objective M C0 a0)%R.
Proof. exact run_decreases. Qed.
Print Assumptions C30_train_never_increases.
(** The cost computed in an iteration is the objective, and the new centroids are the means. *)
Theorem C30_iteration : forall (M C : matrix R), mwf M -> mwf C -> mcols C = mcols M -> 0 < nrows C ->
  exists idx ds C', find_closest_centroids C M = Ok (idx, ds) /\ vsum ds = objective M C idx /\
    update_centroids (nrows C) M idx = Ok C' /\ mwf C' /\ nrows C' = nrows C /\ mcols C' = mcols M /\
    (forall c, c < nrows C -> In c idx -> is_mean_of M C' idx c) /\
    (objective M C' idx <= objective M C idx)%R /\
    exists idx' ds', find_closest_centroids C' M = Ok (idx', ds') /\ vsum ds' = objective M C' idx' /\
      (objective M C' idx' <= objective M C' idx)%R.
Proof. exact lloyd_step. Qed.
Print Assumptions C30_iteration.
Example C30_ex : let M := Mat [[0%R]; [2%R]; [10%R]] 1 in let C0 := Mat [[0%R]; [10%R]] 1 in
  mwf M /\ mwf C0 /\ mcols C0 = mcols M /\ nrows C0 = 2 /\ 0 < 2 <= nrows M.
Proof. cbn. repeat split; try (repeat constructor). Qed.

(** C31 *)
Theorem C31_checks : forall (tol : B64) init (m : KMeans B64) (M : matrix B64),
  (nrows M < km_k m -> km_train tol init m M = (m, Err InvalidData)) /\
  (forall e, km_k m <= nrows M -> init = Err e -> km_train tol init m M = (m, Err e)) /\
  (forall c, km_k m <= nrows M -> init = Ok c -> nrows c <> km_k m \/ mcols c <> mcols M -> km_train tol init m M = (m, Err InvalidState)).
Proof. exact train_checks. Qed.
Print Assumptions C31_checks.
(** Forgy: rows at [k] different positions; it cannot panic; the rejection loop ends with
    probability one (the chance of needing more than [fuel] draws goes to zero). *)
Theorem C31_forgy : forall (M : matrix B64) fuel k,
  (forall r, outcome (forgy fuel k M) (Some (Some r)) -> exists chosen C, r = Ok C /\ distinct_rows M k chosen C) /\
  (k <= nrows M -> ~ outcome (forgy fuel k M) None) /\
  (k <= nrows M -> (prob (forgy fuel k M) (fun o => match o with None => true | _ => false end) <= 2 ^ k * (1 - 1 / (2 * INR (nrows M))) ^ fuel)%R).
Proof. exact forgy_spec. Qed.
Print Assumptions C31_forgy.
Theorem C31_random_partition : forall (M : matrix R) k, 0 < k <= nrows M -> forall o, outcome (random_partition k M) o ->
  exists classes C, o = Some (Ok C) /\ splits (nrows M) classes /\ length classes = k /\ mwf C /\ nrows C = k /\ mcols C = mcols M /\
    forall c, c < k -> is_mean_at M C c (nth c classes []).
Proof. exact partition_spec. Qed.
Print Assumptions C31_random_partition.
(** k-means++ ([first], [us]: its draws): rows at different positions, none equal to another. *)
Theorem C31_kmeanspp : forall (M : matrix R), mwf M -> forall k first us,
  first < nrows M -> length us = k - 1 -> 0 < k -> Forall (fun u => 0 <= u < 1)%R us ->
  forall chosen C, kpp M k first us = Ok (chosen, C) -> distinct_rows M k chosen C /\ different_rows M chosen.
Proof. exact (fun M W k first us A B C D => proj1 (kpp_spec M W k first us A B C D)). Qed.
Print Assumptions C31_kmeanspp.
Example C31_ex : let M := Mat [[0%R]; [2%R]; [10%R]] 1 in mwf M /\ 1 < nrows M /\ length [(1 / 2)%R] = 2 - 1 /\
  Forall (fun u => 0 <= u < 1)%R [(1 / 2)%R] /\ 0 < 2 <= nrows M.
Proof. cbn. repeat split; try (repeat constructor); lra. Qed.

(** C32 as stated fails. Forgy may choose two equal rows; train then succeeds with a NaN centroid. *)
Theorem C32_refuted_duplicate_rows : exists C m', outcome (forgy 2 2 (col1 [7; 7]%Z)) (Some (Some (Ok C))) /\
  km_train tol64 (Ok C) (km_new 2 10) (col1 [7; 7]%Z) = (m', Ok tt) /\ nan_rows m' = [false; true].
Proof. exact duplicate_nan. Qed.
Print Assumptions C32_refuted_duplicate_rows.
(** Four different rows 0, 2, 98, 100 in 3 clusters: after a random partition with classes
    {0,100}, {2}, {98}, training succeeds with two NaN centroids and all rows in one cluster. *)
Theorem C32_refuted_collapse : exists C m', outcome (random_partition 3 spread) (Some (Ok C)) /\
  km_train tol64 (Ok C) (km_new 3 10) spread = (m', Ok tt) /\ nan_rows m' = [false; true; true] /\
  km_predict m' spread = Ok [0; 0; 0; 0].
Proof. exact collapse. Qed.
Print Assumptions C32_refuted_collapse.
(** The default initialiser panics on two equal rows and k = 2. *)
Theorem C32_refuted_kmeanspp_panic : forall u first, first < 2 -> kpp (col1 [7; 7]%Z) 2 first [u] = Panic.
Proof. exact kpp_panics. Qed.
Print Assumptions C32_refuted_kmeanspp_panic.

(** C68: a recomputed centroid is finite exactly when some row was assigned to it. *)
Theorem C68_finite_iff_nonempty : forall M cl k, length cl = nrows M ->
  exists C, update_centroids k (inj M) cl = Ok C /\ nrows C = k /\
  forall c, c < k -> (In c cl -> exists r, nth c (mrows C) [] = map Fin r) /\ (~ In c cl -> nth c (mrows C) [] = repeat NaN (mcols M)).
Proof. exact update_finite_iff. Qed.
Print Assumptions C68_finite_iff_nonempty.
Example C68_ex : length [0; 0; 2] = nrows (Mat [[0%R]; [2%R]; [10%R]] 1).
Proof. reflexivity. Qed.

(** C69: k-means++ succeeds for all draws when at least [k] rows are different, and panics for all
    draws otherwise. *)
Theorem C69_kmeanspp_succeeds_iff : forall (M : matrix R), mwf M -> forall k first us,
  first < nrows M -> length us = k - 1 -> 0 < k -> Forall (fun u => 0 <= u < 1)%R us ->
  (has_distinct M k -> exists p, kpp M k first us = Ok p) /\ (~ has_distinct M k -> kpp M k first us = Panic).
Proof. exact (fun M W k first us A B C D => proj2 (kpp_spec M W k first us A B C D)). Qed.
Print Assumptions C69_kmeanspp_succeeds_iff.
Example C69_ex : has_distinct (Mat [[0%R]; [2%R]; [0%R]] 1) 2.
Proof.
  exists [0; 1]. split; auto. split; [repeat constructor|]. unfold different_rows. cbn. repeat constructor; cbn; auto.
  intros [H|[]]. injection H as H. lra.
Qed.

(** C69: an error value is [InvalidData], and only because two rows have no finite squared distance; when
    the first centroid is such a row, that is the answer for all later draws.  Any arithmetic. *)
Theorem C69_errors : forall (F : Type) (N : Num F) (M : matrix F) k first us,
  (forall e, kpp M k first us = Err e -> e = InvalidData /\ exists c x, In c (mrows M) /\ In x (mrows M) /\ nfinite (sqdist c x) = false) /\
  (forall r, ridx (mrows M) first = Ok r -> us <> [] -> (exists x, In x (mrows M) /\ nfinite (sqdist r x) = false) -> kpp M k first us = Err InvalidData).
Proof. exact (fun F N M k first us => conj (kpp_err M k first us) (kpp_err_first M k first us)). Qed.
Print Assumptions C69_errors.
Example C69_errors_ex : exists M : matrix X, mwf M /\ kpp M 2 0 [Fin (1 / 2)] = Err InvalidData.
Proof. exact kpp_err_ex. Qed.

(** C98: with [k ^ rows] iterations and a small enough tolerance, training ends at centroids that a
    further iteration leaves alone (every row at its closest centroid, every centroid the mean of its
    rows), unless a centroid loses all its rows on the way. *)
Theorem C98_reaches_fixed_point : forall (M C0 : matrix R) k, mwf M -> mwf C0 -> mcols C0 = mcols M -> nrows C0 = k -> 0 < k <= nrows M ->
  exists d, (0 < d)%R /\ forall tol (m : KMeans X), km_k m = k -> (tol <= d)%R -> k ^ nrows M <= km_iters m ->
    exists m' C, km_train (Fin tol) (Ok (inj C0)) m (inj M) = (m', Ok tt) /\ km_centroids m' = Some C /\
      ((exists Cf a, C = inj Cf /\ nonempty a k /\ lloyd_step_spec M k a Cf Cf) \/
       (exists l a C2, lloyd_run M k C0 l /\ lloyd_step_spec M k a (last_centres C0 l) C2 /\ ~ nonempty a k)).
Proof. exact train_fixed_point. Qed.
Print Assumptions C98_reaches_fixed_point.
Example C98_ex : let C0 := Mat [[0%R]; [10%R]] 1 in mwf demo /\ mwf C0 /\ mcols C0 = mcols demo /\ nrows C0 = 2 /\ 0 < 2 <= nrows demo /\
  (forall l a C2, lloyd_run demo 2 C0 l -> lloyd_step_spec demo 2 a (last_centres C0 l) C2 -> nonempty a 2).
Proof.
  cbn. repeat split; try (repeat constructor). intros l a C2 R1 S2. apply (demo_never_empty _ _ R1) with (C2 := C2); auto.
  unfold demo_inv. cbn. lra.
Qed.
(** Training stops exactly when the objectives at the start of two successive steps (0 before the first) differ by less than the
    tolerance, or when the limit is reached; before a centroid loses all its rows they never do. *)
Theorem C98_stop_rule : forall (tol : R) (m : KMeans X) (M C0 : matrix R), mwf M -> mwf C0 -> mcols C0 = mcols M -> nrows C0 = km_k m -> 0 < km_k m <= nrows M ->
  exists m' C l, km_train (Fin tol) (Ok (inj C0)) m (inj M) = (m', Ok tt) /\ km_centroids m' = Some C /\ lloyd_run M (km_k m) C0 l /\
    ((C = inj (last_centres C0 l) /\ ((length l = km_iters m /\ apart tol 0 (run_costs M C0 l)) \/ (length l <= km_iters m /\ settles tol 0 (run_costs M C0 l)))) \/
     (length l < km_iters m /\ apart tol 0 (run_costs M C0 l) /\ exists a C2, lloyd_step_spec M (km_k m) a (last_centres C0 l) C2 /\ ~ nonempty a (km_k m))).
Proof. exact train_stop_rule. Qed.
Print Assumptions C98_stop_rule.
(** The tolerance in the code is the constant 1e-14: rows 0, 2, 3, 10 times 1e-9 started at the first two stop
    after one iteration, whatever the iteration limit, and not at a fixed point. *)
Theorem C98_tiny_data_stops_early : forall iters (m : KMeans X), km_k m = 2 -> km_iters m = S iters ->
  exists m' Cf, km_train (Fin (/ 10 ^ 14)) (Ok (inj tiny_start)) m (inj tiny) = (m', Ok tt) /\ km_centroids m' = Some (inj Cf) /\
    ~ exists a, lloyd_step_spec tiny 2 a Cf Cf.
Proof. exact tiny_stops. Qed.
Print Assumptions C98_tiny_data_stops_early.
Example C98_tiny_ex : let m := @km_new X 2 100 in km_k m = 2 /\ km_iters m = 100 /\ nrows tiny = 4.
Proof. repeat split. Qed.
