(** * C100-C105: results in binary64 arithmetic against the exact ones *)
From Coq Require Import List Arith Lia Bool Reals Lra ZArith.
From Flocq Require Import Core BinarySingleNaN.
From Verif Require Import Base Num NumF NumFn Linalg Spec_KNN Model_Score Spec_Score Model_Kernel Spec_Kernel Model_Cost Spec_Cost Model_KNN Model_KMeans Model_Regression
  Spec_B64 B64Err Proof_ScoreB64 Proof_KernelB64 Proof_DistB64 Proof_ErrB64 Proof_B64Ex Proof_GeomEx.
Import ListNotations.
Local Open Scope R_scope.

(** C100: classification scores. *)
Theorem C100_accuracy : forall (T : Type) (eqb : T -> T -> bool) (os ts : list T), length os = length ts -> os <> [] -> exact_count (length os) ->
  exists a, accuracy (F := B64) eqb os ts = Ok a /\ rounded_ratio a (count2 eqb os ts) (length os) /\
    ((forall x y, eqb x y = true <-> x = y) -> (B2R a = 1 <-> os = ts)).
Proof. exact @accuracy_b64. Qed.
Print Assumptions C100_accuracy.
(** Accuracies on the same targets compare as the numbers of right answers do. *)
Theorem C100_accuracy_ranks : forall (T : Type) (eqb : T -> T -> bool) (os os' ts : list T),
  length os = length ts -> length os' = length ts -> (Z.of_nat (length ts) < 2 ^ 53)%Z -> ts <> [] ->
  exists a a', accuracy (F := B64) eqb os ts = Ok a /\ accuracy (F := B64) eqb os' ts = Ok a' /\
    (nltb a a' = true <-> (count2 eqb os ts < count2 eqb os' ts)%nat).
Proof. exact @accuracy_b64_order. Qed.
Print Assumptions C100_accuracy_ranks.
Theorem C100_two_class : forall (T : Type) (eqb : T -> T -> bool), (forall x y, eqb x y = true <-> x = y) -> forall zero one : T, zero <> one ->
  forall os ts : list T, length os = length ts -> two_class zero one os -> two_class zero one ts -> exact_count (2 * length os) ->
  exists p r f, precision (F := B64) eqb zero one os ts = Ok p /\ recall (F := B64) eqb zero one os ts = Ok r /\ f1 (F := B64) eqb zero one os ts = Ok f /\
    rounded_ratio p (TP eqb one os ts) (TP eqb one os ts + FP eqb zero one os ts) /\
    rounded_ratio r (TP eqb one os ts) (TP eqb one os ts + FN eqb zero one os ts) /\
    rounded_ratio f (2 * TP eqb one os ts) (2 * TP eqb one os ts + FP eqb zero one os ts + FN eqb zero one os ts).
Proof. exact @two_class_b64. Qed.
Print Assumptions C100_two_class.
Example C100_ex : let os := [1; 1; 1; 0; 0]%nat in let ts := [1; 1; 0; 1; 0]%nat in
  length os = length ts /\ exact_count (2 * length os) /\ two_class 0%nat 1%nat os /\ two_class 0%nat 1%nat ts /\ count2 Nat.eqb os ts = 3%nat /\ os <> [].
Proof. repeat split; try (cbv; discriminate); unfold two_class; simpl; intuition. Qed.

(** C101: kernels; [NF] is any library of elementary functions. *)
Theorem C101_symmetric : forall (NF : NumFn B64) (a c d l : B64),
  symmetric (k_linear c) /\ symmetric (k_polynomial a c d) /\ symmetric (k_squared_exp l a) /\ symmetric (k_exponential l a) /\
  symmetric (k_hyper_tan a c) /\ symmetric (k_multiquadric c) /\ symmetric (k_rational_quadratic a l).
Proof. exact @kernels_sym_b64. Qed.
Print Assumptions C101_symmetric.
Theorem C101_symmetric_combinations : forall k1 k2 : Kernel B64, symmetric k1 -> symmetric k2 -> symmetric (kernel_sum k1 k2) /\ symmetric (kernel_prod k1 k2).
Proof. exact combine_sym_b64. Qed.
Print Assumptions C101_symmetric_combinations.
Theorem C101_range : forall (NF : NumFn B64), good_exp nexp -> forall (l a : B64) (x y : list B64), is_finite a = true -> 0 <= B2R a ->
  is_finite (nmul (nmul two l) l) = true -> 0 < B2R (nmul (nmul two l) l) -> finite_vec x -> finite_vec y -> length x = length y ->
  (exists v, k_squared_exp l a x y = Ok v /\ is_finite v = true /\ 0 <= B2R v <= B2R a /\ k_squared_exp l a x x = Ok a) /\
  (exists v, k_exponential l a x y = Ok v /\ is_finite v = true /\ 0 <= B2R v <= B2R a /\ k_exponential l a x x = Ok a).
Proof.
  exact (fun NF G l a x y A B C D E F L => conj (squared_exp_b64 G l a x y A B C D E F L) (exponential_b64 G l a x y A B C D E F L)).
Qed.
Print Assumptions C101_range.
(** A correctly rounded exponential is one the theorem covers. *)
Example C101_ex : good_exp b64_exp /\ finite_vec [b64_of_Z 3; b64_of_Z (-1)] /\ is_finite (nmul (nmul two (b64_of_Z 1)) (b64_of_Z 1)) = true.
Proof. split; [exact exp_good|]. split; [repeat constructor|vm_compute; reflexivity]. Qed.

(** C102: the regression score. *)
Theorem C102_neg_mean_squared_error : forall o t : matrix B64, mwf o -> mwf t -> same_shape o t = true -> finite_mat o -> finite_mat t ->
  (0 < nrows o)%nat -> exact_count (2 * nrows o) ->
  exists v, neg_mean_squared_error o t = Ok v /\ Bleb v (B754_zero false) = true /\
    (is_finite v = true -> Rabs (- B2R v - mean_squared_error (real_mat o) (real_mat t)) <=
      ((1 + u64) ^ (4 + mcols o + nrows o) - 1) * mean_squared_error (real_mat o) (real_mat t) + (INR (mcols o) * (1 + u64) ^ (1 + mcols o + nrows o) + 2) * h64) /\
    (o = t -> B2R v = 0).
Proof. exact nmse_b64. Qed.
Print Assumptions C102_neg_mean_squared_error.
(** The absolute term is needed: by underflow the score of different matrices can be zero. *)
Theorem C102_zero_score_of_different_outputs : neg_mean_squared_error (F := B64) (Mat [[tiny64]] 1) (Mat [[nzero]] 1) = Ok (B754_zero true) /\ B2R tiny64 <> 0.
Proof. exact underflow_score. Qed.
Print Assumptions C102_zero_score_of_different_outputs.
Example C102_ex : let o := Mat [[b64_of_Z 1; b64_of_Z 2]; [b64_of_Z 3; b64_of_Z 4]] 2 in let t := Mat [[b64_of_Z 1; b64_of_Z 2]; [b64_of_Z 3; b64_of_Z 5]] 2 in
  mwf o /\ mwf t /\ same_shape o t = true /\ finite_mat o /\ finite_mat t /\ exact_count (2 * nrows o) /\
  match neg_mean_squared_error o t with Ok v => B2SF v = SpecFloat.S754_finite true 4503599627370496 (-53) | _ => False end.
Proof.
  split; [repeat constructor|]. split; [repeat constructor|]. split; [reflexivity|]. split; [repeat constructor|]. split; [repeat constructor|].
  split; [cbv; discriminate|]. vm_compute. reflexivity.
Qed.

(** C103: nearest neighbours. *)
Theorem C103_brute_force_true_distances : forall (data : matrix B64) (point : list B64) (k : nat),
  mwf data -> length point = mcols data -> moderate_dim (mcols data) -> moderate point -> (forall r, In r (mrows data) -> moderate r) -> (1 <= k <= nrows data)%nat ->
  let D := fun i => true_dist (mcols data) point (nth i (mrows data) []) in
  exists idx ds, brute_search (Some data) point k = Ok (idx, ds) /\ length idx = k /\ NoDup idx /\ (forall i, In i idx -> (i < nrows data)%nat) /\
    (forall i, (i < k)%nat -> close_to (B2R (nth i ds nzero)) (D (nth i idx 0%nat))) /\
    (forall i j, In i idx -> (j < nrows data)%nat -> ~ In j idx -> D i <= (1 + bpow radix2 (-29)) * D j + bpow radix2 (-524)).
Proof. exact brute_true. Qed.
Print Assumptions C103_brute_force_true_distances.
Theorem C103_kdtree_true_distances : forall (data : matrix B64) (point : list B64) (k : nat) fuel leafsize t,
  mwf data -> length point = mcols data -> moderate_dim (mcols data) -> moderate point -> (forall r, In r (mrows data) -> moderate r) -> (1 <= k)%nat -> (0 < nrows data)%nat ->
  tree_build kd_split fuel leafsize data = Some (Ok t) -> k = 1%nat \/ (k <= length (home point t))%nat ->
  let D := fun i => true_dist (mcols data) point (nth i (mrows data) []) in
  exists idx ds, tree_search kd_split (Some (t, data)) point k = Ok (idx, ds) /\ length idx = k /\ NoDup idx /\ (forall i, In i idx -> (i < nrows data)%nat) /\
    (forall i, (i < k)%nat -> close_to (B2R (nth i ds nzero)) (D (nth i idx 0%nat))) /\
    (forall i j, In i idx -> (j < nrows data)%nat -> ~ In j idx -> D i <= (1 + bpow radix2 (-29)) * D j + bpow radix2 (-524)).
Proof. exact kd_true. Qed.
Print Assumptions C103_kdtree_true_distances.
Example C103_ex : let data := Mat [[b64_of_Z 1; b64_of_Z 2]; [b64_of_Z 3; b64_of_Z 4]; [b64_of_Z (-7); b64_of_Z 0]] 2 in
  mwf data /\ moderate_dim (mcols data) /\ (forall r, In r (mrows data) -> moderate r).
Proof.
  split; [repeat constructor|]. split; [cbv; discriminate|].
  exact (rows_moderate [[1; 2]; [3; 4]; [-7; 0]]%Z eq_refl).
Qed.

(** C104: k-means predictions. *)
Theorem C104_kmeans_true_distances : forall (m : KMeans B64) (C M : matrix B64),
  km_centroids m = Some C -> mwf C -> mwf M -> mcols C = mcols M -> (0 < nrows C)%nat -> moderate_dim (mcols M) ->
  (forall r, In r (mrows C) -> moderate r) -> (forall r, In r (mrows M) -> moderate r) ->
  exists idx, km_predict m M = Ok idx /\ length idx = nrows M /\
    forall i, (i < nrows M)%nat -> (nth i idx 0 < nrows C)%nat /\
      forall c, (c < nrows C)%nat ->
        true_dist (mcols M) (nth (nth i idx 0%nat) (mrows C) []) (nth i (mrows M) []) ^ 2 <=
        (1 + bpow radix2 (-29)) * true_dist (mcols M) (nth c (mrows C) []) (nth i (mrows M) []) ^ 2 + bpow radix2 (-1052).
Proof. exact kmeans_true. Qed.
Print Assumptions C104_kmeans_true_distances.
Example C104_ex : let C := Mat [[b64_of_Z 0]; [b64_of_Z 10]] 1 in let M := Mat [[b64_of_Z 1]; [b64_of_Z 7]] 1 in
  mwf C /\ mwf M /\ moderate_dim 1 /\ (forall r, In r (mrows C) -> moderate r) /\ (forall r, In r (mrows M) -> moderate r).
Proof.
  split; [repeat constructor|]. split; [repeat constructor|]. split; [cbv; discriminate|].
  split; [exact (rows_moderate [[0]; [10]]%Z eq_refl)|exact (rows_moderate [[1]; [7]]%Z eq_refl)].
Qed.

(** C105: predictions of linear regression. *)
Theorem C105_linear_prediction : forall (m : LinRegressor B64) (w : list B64) (M : matrix B64), lr_parameters m = Some w -> mwf M -> length w = S (mcols M) ->
  exists out, lr_predict m M = Ok out /\ length out = nrows M /\
    forall i, (i < nrows M)%nat -> is_finite (nth i out nzero) = true ->
      let x := 1 :: real_vec (nth i (mrows M) []) in let n := S (mcols M) in
      Rabs (B2R (nth i out nzero) - real_dot x (real_vec w)) <= ((1 + u64) ^ S n - 1) * abs_dot x (real_vec w) + INR n * h64 * (1 + u64) ^ n.
Proof. exact linear_true. Qed.
Print Assumptions C105_linear_prediction.
Example C105_ex : let m := {| lr_parameters := Some [b64_of_Z 1; b64_of_Z 2] |} in
  match lr_predict (F := B64) m (Mat [[b64_of_Z 3]] 1) with Ok [v] => B2SF v = B2SF (b64_of_Z 7) | _ => False end.
Proof. vm_compute. reflexivity. Qed.
(** The factor: for up to a million terms [(1 + u)^n - 1] is below [2^-31]. *)
Theorem C105_relative_error_small : forall n, moderate_dim n -> (1 + u64) ^ (4 + n) - 1 <= bpow radix2 (-31).
Proof. exact dims_gamma. Qed.
Print Assumptions C105_relative_error_small.
