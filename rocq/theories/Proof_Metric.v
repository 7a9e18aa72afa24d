(** * Scores of two models that answer alike (C197) *)
From Coq Require Import List Arith Lia Bool Reals Lra.
From Verif Require Proof_NNet2.
From Verif Require Import Base BaseLemmas Num NumX Linalg LinalgR Euclid Spec_Calc CalcR Model_Score Spec_Score Proof_Score Model_Cost Spec_Cost Proof_Cost Spec_Metric.
Import ListNotations.
Local Open Scope R_scope.

(** ** Accuracy *)
Lemma count2_triangle {T} (eqb : T -> T -> bool) : (forall x y, eqb x y = true <-> x = y) -> forall a b c : list T, length a = length b -> length b = length c ->
  (count2 eqb a b + count2 eqb b c <= length a + count2 eqb a c)%nat.
Proof.
  intros H. induction a as [|x a IH]; intros [|y b] [|z c] L1 L2; cbn in *; try lia. specialize (IH b c ltac:(lia) ltac:(lia)).
  destruct (eqb x y) eqn:E1, (eqb y z) eqn:E2; try (destruct (eqb x z); lia).
  apply H in E1, E2. subst. rewrite (proj2 (H z z) eq_refl). lia.
Qed.
Lemma count2_comm {T} (eqb : T -> T -> bool) : (forall x y, eqb x y = true <-> x = y) -> forall a b : list T, count2 eqb a b = count2 eqb b a.
Proof.
  intros H. induction a as [|x a IH]; intros [|y b]; cbn; auto. rewrite IH. destruct (eqb x y) eqn:E.
  - apply H in E. subst. now rewrite (proj2 (H y y) eq_refl).
  - destruct (eqb y x) eqn:E'; auto. apply H in E'. subst. rewrite (proj2 (H x x) eq_refl) in E. discriminate.
Qed.
Lemma accuracy_count {T} (eqb : T -> T -> bool) a b p : accuracy (F := X) eqb a b = Ok (Fin p) -> length a = length b /\ (0 < length a)%nat /\ p * INR (length a) = INR (count2 eqb a b).
Proof.
  rewrite accuracy_spec. destruct (Nat.eqb_spec (length a) (length b)) as [L|]; [|discriminate]. unfold ratio. destruct (Nat.eqb_spec (length a) 0); [discriminate|].
  intros H. injection H as <-. split; [exact L|]. split; [lia|]. field. apply not_0_INR. lia.
Qed.
Theorem accuracy_alike {T} (eqb : T -> T -> bool) : (forall x y, eqb x y = true <-> x = y) -> forall a b t p q r,
  accuracy (F := X) eqb a t = Ok (Fin p) -> accuracy (F := X) eqb b t = Ok (Fin q) -> accuracy (F := X) eqb a b = Ok (Fin r) -> Rabs (p - q) <= 1 - r /\ p + q <= 1 + r.
Proof.
  intros H a b t p q r Hp Hq Hr. destruct (accuracy_count _ _ _ _ Hp) as (L1 & P & Ep), (accuracy_count _ _ _ _ Hq) as (L2 & _ & Eq), (accuracy_count _ _ _ _ Hr) as (L3 & _ & Er).
  apply lt_0_INR in P. rewrite <- L3 in Eq.
  pose proof (le_INR _ _ (count2_triangle eqb H a b t L3 L2)) as T1. pose proof (le_INR _ _ (count2_triangle eqb H b a t ltac:(lia) ltac:(lia))) as T2.
  pose proof (le_INR _ _ (count2_triangle eqb H a t b ltac:(lia) ltac:(lia))) as T3.
  rewrite !plus_INR in *. rewrite (count2_comm eqb H b a), <- L3 in T2. rewrite (count2_comm eqb H t b) in T3. rewrite <- Ep, <- Eq, <- Er in *.
  set (n := INR (length a)) in *. split.
  - apply Rabs_le. split; apply (Rmult_le_reg_r n); auto; lra.
  - apply (Rmult_le_reg_r n); auto; lra.
Qed.

Lemma count2_majority {T} (eqb : T -> T -> bool) : (forall x y, eqb x y = true <-> x = y) -> forall a b c v : list T, majority a b c v -> forall t, length a = length t ->
  (count2 eqb a t + count2 eqb b t + count2 eqb c t <= length t + 2 * count2 eqb v t)%nat.
Proof.
  intros H a b c v M. induction M as [|x y z w a b c v H1 H2 H3 M IH]; intros [|u t] L; cbn [length] in L; try discriminate; [cbn; lia|].
  specialize (IH t ltac:(lia)). cbn [count2 length].
  assert (E : forall g, (if eqb g u then 1 else 0)%nat = 1%nat /\ g = u \/ (if eqb g u then 1 else 0)%nat = 0%nat /\ g <> u).
  { intros g. destruct (eqb g u) eqn:Q; [left; split; [reflexivity|now apply H]|right; split; [reflexivity|]]. intros ->. rewrite (proj2 (H u u) eq_refl) in Q. discriminate. }
  destruct (E x) as [[Ex Hx]|[Ex Hx]], (E y) as [[Ey Hy]|[Ey Hy]], (E z) as [[Ez Hz]|[Ez Hz]], (E w) as [[Ew Hw]|[Ew Hw]]; rewrite Ex, Ey, Ez, Ew; try lia; exfalso; apply Hw; subst.
  all: first [now apply H1|now apply H2|now apply H3].
Qed.
Theorem accuracy_majority {T} (eqb : T -> T -> bool) : (forall x y, eqb x y = true <-> x = y) -> forall a b c v t p q r s, majority a b c v ->
  accuracy (F := X) eqb a t = Ok (Fin p) -> accuracy (F := X) eqb b t = Ok (Fin q) -> accuracy (F := X) eqb c t = Ok (Fin r) -> accuracy (F := X) eqb v t = Ok (Fin s) ->
  1 - s <= ((1 - p) + (1 - q) + (1 - r)) / 2.
Proof.
  intros H a b c v t p q r s M Hp Hq Hr Hs. destruct (accuracy_count _ _ _ _ Hp) as (L1 & P & Ep), (accuracy_count _ _ _ _ Hq) as (L2 & _ & Eq), (accuracy_count _ _ _ _ Hr) as (L3 & _ & Er), (accuracy_count _ _ _ _ Hs) as (L4 & _ & Es).
  apply lt_0_INR in P. pose proof (le_INR _ _ (count2_majority eqb H a b c v M t L1)) as I. rewrite !plus_INR, mult_INR, <- Ep, <- Eq, <- Er, <- Es in I. rewrite L1 in *. rewrite L2, L3, L4 in I.
  set (n := INR (length t)) in *. cbn [INR] in I. apply (Rmult_le_reg_r n); auto; lra.
Qed.

(** ** Mean squared error *)
Lemma d2_app a b a' b' : length a = length a' -> d2 (a ++ b) (a' ++ b') = d2 a a' + d2 b b'.
Proof.
  rewrite !d2_sum. revert a'. induction a as [|x a IH]; intros [|y a'] L; try discriminate; cbn [app map2 rsum fold_right]; [cbn; ring|].
  cbn in L. specialize (IH a' ltac:(lia)). cbn in *. rewrite IH. ring.
Qed.
Lemma d2_rows c : forall A B, Forall (fun r => length r = c) A -> Forall (fun r => length r = c) B -> length A = length B ->
  sumR (length A) (fun i => sumR c (fun j => (nth j (nth i A []) 0 - nth j (nth i B []) 0) ^ 2)) = d2 (concat A) (concat B).
Proof.
  induction A as [|x A IH]; intros [|y B] HA HB L; try discriminate; [reflexivity|]. inversion HA; inversion HB; subst. cbn [length concat].
  rewrite Proof_NNet2.sumR_S_l. cbn [nth]. rewrite d2_app by congruence. rewrite (IH B) by (auto; cbn in L; lia). f_equal.
  rewrite d2_sum, rsum_nth, map2_length. replace (length y) with (length x) by congruence. rewrite Nat.min_id. apply sumR_ext. intros j Hj.
  rewrite nth_map2_0 by lia. ring.
Qed.
Lemma mse_d2 o t : mwf o -> mwf t -> nrows o = nrows t -> mcols o = mcols t -> mean_squared_error o t = d2 (concat (mrows o)) (concat (mrows t)) / INR (nrows o).
Proof. intros Wo Wt R C. unfold mean_squared_error, sum_entries, entry. f_equal. apply (d2_rows (mcols o)); auto. rewrite C. exact Wt. Qed.
Lemma nmse_is o t v : mwf o -> mwf t -> (0 < nrows o)%nat -> neg_mean_squared_error o t = Ok v -> nrows o = nrows t /\ mcols o = mcols t /\ - v = mean_squared_error o t.
Proof.
  intros Wo Wt P H. destruct (nmse_spec o t Wo Wt) as [N Y]. destruct (same_shape o t) eqn:S.
  - apply same_shape_true in S as S'. destruct S' as [S1 S2]. destruct (Y eq_refl P) as [E _]. rewrite E in H. injection H as <-. repeat split; auto. ring.
  - rewrite N in H by reflexivity. discriminate.
Qed.
Lemma concat_same (A B : matrix R) : mwf A -> mwf B -> nrows A = nrows B -> mcols A = mcols B -> length (concat (mrows A)) = length (concat (mrows B)).
Proof.
  unfold mwf, nrows. intros WA WB R C. rewrite C in WA. revert R WB. generalize (mrows B). induction (mrows A) as [|x l IH]; intros [|y l'] R WB; try discriminate; [reflexivity|].
  inversion WA; inversion WB; subst. cbn. rewrite !app_length. rewrite (IH ltac:(auto) l') by (auto; cbn in R; lia). lia.
Qed.
Lemma root_div x n : 0 < n -> 0 <= x -> sqrt (x / n) = sqrt x / sqrt n.
Proof. intros Hn Hx. apply sqrt_div; auto. Qed.
Theorem nmse_alike a b t p q r : mwf a -> mwf b -> mwf t -> (0 < nrows a)%nat ->
  neg_mean_squared_error a t = Ok p -> neg_mean_squared_error b t = Ok q -> neg_mean_squared_error a b = Ok r -> Rabs (sqrt (- p) - sqrt (- q)) <= sqrt (- r).
Proof.
  intros Wa Wb Wt P Hp Hq Hr. destruct (nmse_is _ _ _ Wa Wt P Hp) as (R1 & C1 & ->). destruct (nmse_is _ _ _ Wa Wb P Hr) as (R3 & C3 & ->).
  destruct (nmse_is _ _ _ Wb Wt ltac:(lia) Hq) as (R2 & C2 & ->). rewrite !mse_d2 by auto. rewrite <- R3. apply lt_0_INR in P.
  rewrite !root_div by (auto; apply d2_nonneg). set (n := sqrt (INR (nrows a))). assert (Hn : 0 < n) by (apply sqrt_lt_R0; exact P).
  set (A := concat (mrows a)). set (B := concat (mrows b)). set (T := concat (mrows t)).
  assert (LA : length A = length B) by (apply concat_same; auto). assert (LB : length B = length T) by (apply concat_same; auto).
  pose proof (d2_triangle A B T LA LB) as T1. pose proof (d2_triangle B A T ltac:(lia) ltac:(lia)) as T2. rewrite (d2_sym B A) in T2.
  rewrite <- Rdiv_minus_distr. unfold Rdiv. rewrite Rabs_mult, (Rabs_right (/ n)) by (left; apply Rinv_0_lt_compat; exact Hn).
  apply Rmult_le_compat_r; [left; now apply Rinv_0_lt_compat|]. apply Rabs_le. lra.
Qed.
Theorem nmse_mixes w a b m t p q r s : mwf a -> mwf b -> mwf m -> mwf t -> (0 < nrows a)%nat -> mixes w a b m ->
  neg_mean_squared_error a t = Ok p -> neg_mean_squared_error b t = Ok q -> neg_mean_squared_error a b = Ok r -> neg_mean_squared_error m t = Ok s ->
  s = w * p + (1 - w) * q - w * (1 - w) * r.
Proof.
  intros Wa Wb Wm Wt P Mx Hp Hq Hr Hs. destruct (nmse_is _ _ _ Wa Wt P Hp) as (R1 & C1 & E1). destruct (nmse_is _ _ _ Wa Wb P Hr) as (R3 & C3 & E3).
  destruct (nmse_is _ _ _ Wb Wt ltac:(lia) Hq) as (R2 & C2 & E2).
  assert (Sm : nrows m = nrows t /\ mcols m = mcols t).
  { destruct (same_shape m t) eqn:S; [now apply same_shape_true|]. rewrite (proj1 (nmse_spec m t Wm Wt) S) in Hs. discriminate. }
  destruct Sm as (R4 & C4). destruct (nmse_is _ _ _ Wm Wt ltac:(lia) Hs) as (_ & _ & E4).
  assert (- s = w * - p + (1 - w) * - q - w * (1 - w) * - r); [|lra]. rewrite E1, E2, E3, E4. unfold mean_squared_error, sum_entries.
  replace (nrows b) with (nrows a) by congruence. replace (nrows m) with (nrows a) by congruence. replace (mcols b) with (mcols a) by congruence. replace (mcols m) with (mcols a) by congruence.
  assert (Hn : 0 < INR (nrows a)) by (apply lt_0_INR; exact P).
  assert (E : sumR (nrows a) (fun i => sumR (mcols a) (fun j => (entry m i j - entry t i j) ^ 2)) =
    w * sumR (nrows a) (fun i => sumR (mcols a) (fun j => (entry a i j - entry t i j) ^ 2)) + (1 - w) * sumR (nrows a) (fun i => sumR (mcols a) (fun j => (entry b i j - entry t i j) ^ 2))
    + (- (w * (1 - w))) * sumR (nrows a) (fun i => sumR (mcols a) (fun j => (entry a i j - entry b i j) ^ 2))).
  { rewrite <- !sumR_scal, <- !sumR_plus. apply sumR_ext. intros i Hi. rewrite <- !sumR_scal, <- !sumR_plus. apply sumR_ext. intros j Hj. rewrite (Mx i j Hi Hj). ring. }
  rewrite E. field. lra.
Qed.

(** ** Concrete cases *)
Definition blend_a : matrix R := Mat [[1]; [4]] 1.
Definition blend_b : matrix R := Mat [[3]; [0]] 1.
Definition blend_m : matrix R := Mat [[2]; [2]] 1.
Definition blend_t : matrix R := Mat [[2]; [1]] 1.
Lemma blend_case : mwf blend_a /\ mwf blend_b /\ mwf blend_m /\ mwf blend_t /\ (0 < nrows blend_a)%nat /\ mixes (/ 2) blend_a blend_b blend_m /\
  neg_mean_squared_error blend_a blend_t = Ok (-5) /\ neg_mean_squared_error blend_b blend_t = Ok (-1) /\ neg_mean_squared_error blend_a blend_b = Ok (-10) /\ neg_mean_squared_error blend_m blend_t = Ok (- / 2).
Proof.
  assert (Q : forall x y u v, neg_mean_squared_error (Mat [[x]; [y]] 1) (Mat [[u]; [v]] 1) = Ok (- (((x - u) ^ 2 + (y - v) ^ 2) / 2))).
  { intros x y u v. destruct (nmse_spec (Mat [[x]; [y]] 1) (Mat [[u]; [v]] 1)) as [_ H]; [repeat constructor|repeat constructor|]. destruct (H eq_refl ltac:(cbn; lia)) as [-> _].
    f_equal. f_equal. unfold mean_squared_error, sum_entries, entry. cbn. field. }
  do 4 (split; [repeat constructor|]). split; [cbn; lia|]. split.
  { intros [|[|i]] [|j] Hi Hj; cbn in Hi, Hj; try lia; unfold entry; cbn; lra. }
  unfold blend_a, blend_b, blend_m, blend_t. rewrite !Q. repeat split; f_equal; lra.
Qed.
Lemma alike_case : accuracy (F := X) Nat.eqb [1; 2; 2; 0]%nat [1; 2; 0; 0]%nat = Ok (Fin (3 / 4)) /\ accuracy (F := X) Nat.eqb [1; 1; 2; 0]%nat [1; 2; 0; 0]%nat = Ok (Fin (1 / 2)) /\
  accuracy (F := X) Nat.eqb [1; 2; 2; 0]%nat [1; 1; 2; 0]%nat = Ok (Fin (3 / 4)).
Proof. rewrite !accuracy_spec. cbn [length Nat.eqb count2 Nat.add]. unfold ratio. cbn [Nat.eqb INR]. repeat split; f_equal; f_equal; lra. Qed.
Lemma vote_case : majority [1; 2; 2; 0]%nat [1; 1; 0; 0]%nat [2; 2; 0; 1]%nat [1; 2; 0; 0]%nat /\ accuracy (F := X) Nat.eqb [1; 2; 2; 0]%nat [1; 2; 0; 1]%nat = Ok (Fin (1 / 2)) /\
  accuracy (F := X) Nat.eqb [1; 1; 0; 0]%nat [1; 2; 0; 1]%nat = Ok (Fin (1 / 2)) /\ accuracy (F := X) Nat.eqb [2; 2; 0; 1]%nat [1; 2; 0; 1]%nat = Ok (Fin (3 / 4)) /\
  accuracy (F := X) Nat.eqb [1; 2; 0; 0]%nat [1; 2; 0; 1]%nat = Ok (Fin (3 / 4)).
Proof. split; [repeat (constructor; try lia)|]. rewrite !accuracy_spec. cbn [length Nat.eqb count2 Nat.add]. unfold ratio. cbn [Nat.eqb INR]. repeat split; f_equal; f_equal; lra. Qed.
