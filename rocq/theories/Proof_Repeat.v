(** Lemmas for [Props_Repeat]. *)
From Coq Require Import List Arith Lia Bool Permutation Reals Lra FunctionalExtensionality.
From Verif Require Import Base BaseLemmas Num NumX NumFn NumOrd Linalg LinalgR Model_Cost Model_Toolkit Model_Optim Model_Regression Model_KMeans
  Model_Transforms Model_Score Spec_Order Spec_Score Proof_Score Proof_KMeans Proof_Order Proof_Order2 Proof_Equiv.
From Verif Require Spec_Equiv.
Import ListNotations.
Notation times := Spec_Equiv.times.

Lemma vsum_times {B} (f : B -> R) k (l : list B) : vsum (map f (times k l)) = (INR k * vsum (map f l))%R.
Proof. rewrite times_map, !vsum_R. unfold rsum. apply times_sum. Qed.
Lemma dot_times {B} (g h : B -> R) k (l : list B) : dot (map g (times k l)) (map h (times k l)) = (INR k * dot (map g l) (map h l))%R.
Proof. rewrite !dot_maps. apply vsum_times. Qed.
Lemma tmv_times {B} (f : B -> list R) (g : B -> R) k l w : exists v, rmat_vec (transpose (Mat (map f l) w)) (map g l) = Ok v /\
  rmat_vec (transpose (Mat (map f (times k l)) w)) (map g (times k l)) = Ok (map (fun x => (INR k * x)%R) v).
Proof.
  unfold rmat_vec, transpose, mat_vec. cbn [mrows mcols]. rewrite !nrows_map, !map_length, !Nat.eqb_refl. cbn [rassert]. eexists. split; [reflexivity|]. f_equal.
  rewrite !map_map. apply map_ext. intros i. rewrite !col_map. apply dot_times.
Qed.
Lemma INR_pos k : 0 < k -> (INR k <> 0)%R. Proof. intros H. apply not_0_INR. lia. Qed.
Lemma div_times k n x : 0 < k -> (INR k * x / INR (k * n) = x / INR n)%R.
Proof.
  intros K. pose proof (INR_pos k K). destruct n as [|n]; [rewrite Nat.mul_0_r; cbn; unfold Rdiv; rewrite Rinv_0; ring|].
  rewrite mult_INR. field. split; [apply INR_pos; lia|auto].
Qed.
(** ** Iterative regression *)
Lemma lr_grad_times w k (l : list (list R * R)) params : 0 < k ->
  lr_compute_grad (with_ones (rows_of w (times k l))) (targets_of (times k l)) params = lr_compute_grad (with_ones (rows_of w l)) (targets_of l) params.
Proof.
  intros K. unfold lr_compute_grad, rows_of, targets_of. rewrite !with_ones_map, !rmat_vec_map, !nrows_map.
  destruct (S w =? length params); cbn [rassert rbind]; auto. rewrite !mse_vec_maps. cbn [rbind]. rewrite !rvsub_maps. cbn [rbind].
  destruct (tmv_times (fun p => nonev :: fst p) (fun p => nsub (dot (nonev :: fst p) params) (snd p)) k l (S w)) as (v & -> & ->). cbn [rbind].
  rewrite times_length, vsum_times, map_map. do 2 f_equal.
  - cbn [ndiv nmul nadd nonev NumR nofnat]. pose proof (INR_pos k K). set (z := vsum _).
    destruct l as [|p l]; [change z with 0%R; unfold Rdiv; ring|].
    rewrite mult_INR. field. split; [|auto]. apply INR_pos. cbn. lia.
  - apply map_ext. intros x. cbn [ndiv NumR nofnat]. apply div_times, K.
Qed.
Lemma log_grad_times w k (l : list (list R * R)) params : 0 < k ->
  log_compute_grad (with_ones (rows_of w (times k l))) (targets_of (times k l)) params = log_compute_grad (with_ones (rows_of w l)) (targets_of l) params.
Proof.
  intros K. unfold log_compute_grad, rows_of, targets_of. rewrite !with_ones_map, !rmat_vec_map, !nrows_map.
  destruct (S w =? length params); cbn [rassert rbind]; auto. rewrite !map_map, !ce_vec_maps. cbn [rbind]. rewrite !rvsub_maps. cbn [rbind].
  destruct (tmv_times (fun p => nonev :: fst p) (fun p => nsub (sigmoid (dot (nonev :: fst p) params)) (snd p)) k l (S w)) as (v & -> & ->). cbn [rbind].
  rewrite times_length, vsum_times, map_map. do 2 f_equal.
  - cbn [ndiv nopp NumR nofnat]. set (z := vsum _). rewrite <- (div_times k (length l) (- z) K). f_equal. ring.
  - apply map_ext. intros x. cbn [ndiv NumR nofnat]. apply div_times, K.
Qed.
Theorem lr_gd_times self w k (l l' : list (list R * R)) : 0 < k -> Permutation l' (times k l) ->
  lr_train_with_optimization self (rows_of w l') (targets_of l') = lr_train_with_optimization self (rows_of w l) (targets_of l).
Proof.
  intros K P. rewrite (lr_gd_order self w l' (times k l) P). unfold lr_train_with_optimization, gd_optimize. erewrite gd_loop_ext; [reflexivity|]. intros v. now apply lr_grad_times.
Qed.
Theorem log_train_times optimize self w k (l l' : list (list R * R)) : 0 < k -> Permutation l' (times k l) ->
  log_train optimize self (rows_of w l') (targets_of l') = log_train optimize self (rows_of w l) (targets_of l).
Proof.
  intros K P. rewrite (log_train_order optimize self w l' (times k l) P). unfold log_train.
  replace (log_compute_grad (with_ones (rows_of w (times k l))) (targets_of (times k l))) with (log_compute_grad (with_ones (rows_of w l)) (targets_of l)); auto.
  apply functional_extensionality. intros v. symmetry. now apply log_grad_times.
Qed.
(** ** k-means *)
Lemma filter_times {B} (p : B -> bool) k l : filter p (times k l) = times k (filter p l).
Proof. unfold Spec_Equiv.times. induction k as [|k IH]; [reflexivity|]. cbn [repeat concat]. now rewrite filter_app, IH. Qed.
Lemma col_mean_times k (l : list (list R)) w : 0 < k -> col_mean (Mat (times k l) w) = col_mean (Mat l w).
Proof.
  intros K. unfold col_mean, nrows, col. cbn [mrows mcols]. rewrite times_length. apply map_ext. intros j. rewrite vsum_times. cbn [ndiv NumR nofnat]. apply div_times, K.
Qed.
Lemma class_mean_times (a : list R -> nat) k l w c : 0 < k -> class_mean (Mat (times k l) w) (map a (times k l)) c = class_mean (Mat l w) (map a l) c.
Proof.
  intros K. unfold class_mean. cbn [mcols]. pose proof (class_pairs (fun x => x) a (times k l) w c) as E. pose proof (class_pairs (fun x => x) a l w c) as E'.
  rewrite !map_id in E, E'. rewrite E, E', filter_times. now apply col_mean_times.
Qed.
Lemma find_closest_maps (C : matrix R) w : (forall l', l' <> [] -> find_closest_centroids C (Mat l' w) = Panic) \/
  exists a d, forall l', find_closest_centroids C (Mat l' w) = Ok (map a l', map d l').
Proof.
  unfold find_closest_centroids. cbn [mcols mrows]. destruct (closest_fails C w []) as [[p Hp]|H].
  - right. exists (fun x => match closest C w x with Ok (c, _) => c | _ => 0 end), (fun x => match closest C w x with Ok (_, d) => d | _ => nzero end). intros l'.
    assert (A : forall x, exists q, closest C w x = Ok q). { intros x. destruct (closest_fails C w x) as [Q|Q]; [exact Q|]. rewrite Q in Hp. discriminate. }
    assert (E : exists ps, rmap (closest C w) l' = Ok ps). { induction l' as [|y r (ps & IH)]; [eexists; reflexivity|]. destruct (A y) as [q Hq]. cbn. rewrite Hq, IH. cbn. eauto. }
    destruct E as (ps & E). rewrite E. cbn [rbind]. destruct (rmap_split _ 0 nzero _ _ E) as [-> ->]. reflexivity.
  - left. intros [|x l'] N; [congruence|]. cbn. now rewrite H.
Qed.
Lemma times_nil {B} k (l : list B) : 0 < k -> l <> [] -> times k l <> [].
Proof. intros K N E. apply (f_equal (@length B)) in E. rewrite times_length in E. destruct l; [congruence|]. cbn in E. nia. Qed.
Lemma lloyd_times tol n w k l : 0 < k -> l <> [] -> forall iters cost C,
  lloyd (INR k * tol)%R n (Mat (times k l) w) iters (INR k * cost)%R C = lloyd tol n (Mat l w) iters cost C.
Proof.
  intros K NE. induction iters as [|i IH]; intros cost C; cbn [lloyd]; auto.
  destruct (find_closest_maps C w) as [H|(a & d & H)]; [rewrite !H by (auto using times_nil); reflexivity|]. rewrite !H. cbn [rbind].
  rewrite !update_spec by (unfold nrows; cbn [mrows]; apply map_length). cbn [rbind mcols].
  assert (EC : map (class_mean (Mat (times k l) w) (map a (times k l))) (seq 0 n) = map (class_mean (Mat l w) (map a l)) (seq 0 n)) by (apply map_ext; intros c; now apply class_mean_times).
  rewrite EC, vsum_times, IH. assert (P : (0 < INR k)%R) by (apply lt_0_INR; exact K). set (z := vsum _).
  assert (E : nltb (nabs (nsub (INR k * cost)%R (INR k * z)%R)) (INR k * tol)%R = nltb (nabs (nsub cost z)) tol).
  { cbn [nabs nsub NumR]. rewrite <- Rmult_minus_distr_l, Rabs_mult, (Rabs_pos_eq (INR k)) by lra.
    destruct (nltb (Rabs (cost - z)) tol) eqn:Q; [apply nltb_R in Q; apply nltb_R; now apply Rmult_lt_compat_l|]. apply nltb_R_false in Q. apply nltb_R_false. apply Rmult_le_compat_l; lra. }
  rewrite E. reflexivity.
Qed.
Theorem km_times tol init (m : KMeans R) w k l l' : 0 < k -> l <> [] -> km_k m <= length l -> Permutation l' (times k l) ->
  km_train (INR k * tol)%R init m (Mat l' w) = km_train tol init m (Mat l w).
Proof.
  intros K NE G P. rewrite (km_train_order _ init m w l' (times k l) P). unfold km_train, init_centroids, nrows at 1 3. cbn [mrows mcols]. rewrite times_length.
  assert (E1 : (k * length l <? km_k m) = false) by (apply Nat.ltb_ge; nia). assert (E2 : (length l <? km_k m) = false) by (apply Nat.ltb_ge; lia). rewrite E1, E2.
  destruct init as [c| |]; cbn [rbind]; auto. destruct (negb (nrows c =? km_k m)); auto. destruct (negb (mcols c =? w)); auto.
  change (@nzero R NumR) with 0%R. replace 0%R with (INR k * 0)%R at 1 by ring. now rewrite lloyd_times.
Qed.
(** ** Transforms *)
Lemma times_perm {B} k (l : list B) : Permutation (times k l) (flat_map (fun x => repeat x k) l).
Proof.
  unfold Spec_Equiv.times. induction k as [|k IH]; cbn [repeat concat]; [clear; induction l; cbn; auto|]. rewrite IH. clear IH. induction l as [|x l IH]; cbn [flat_map repeat app]; [auto|].
  constructor. rewrite app_assoc, (Permutation_app_comm l (repeat x k)), <- app_assoc. now apply Permutation_app_head.
Qed.
Lemma minmax_idem r : forall mm q, Forall fin_pair mm -> minmax_row (F:=X) r mm = Ok q -> minmax_row r q = Ok q.
Proof.
  induction r as [|x r IH]; intros [|[mn mx] mm] q H E; cbn in E; try (injection E as <-; reflexivity).
  inversion H as [|? ? (a & b & Eab) H2]; subst. injection Eab as -> ->. destruct x as [x| | |]; cbn in E; try discriminate.
  destruct (minmax_row r mm) as [q'| |] eqn:Q; cbn in E; try discriminate. injection E as <-. cbn. rewrite (IH mm q' H2 Q). cbn. do 2 f_equal.
  f_equal; repeat (destruct Rlt_dec; cbn [xltb] in *); try reflexivity; try (f_equal; lra); try (exfalso; lra).
Qed.
Lemma minmax_rows_times k l : 0 < k -> forall mm, Forall fin_pair mm -> minmax_rows (F:=X) (flat_map (fun x => repeat x k) l) mm = minmax_rows l mm.
Proof.
  intros K. induction l as [|x l IH]; intros mm H; [reflexivity|]. cbn [flat_map minmax_rows]. destruct k as [|k]; [lia|]. cbn [repeat app minmax_rows].
  destruct (minmax_row x mm) as [q| |] eqn:Q; cbn [rbind]; auto. pose proof (minmax_row_fin _ _ _ H Q) as HQ. rewrite <- (IH q HQ). cbn [repeat].
  pose proof (minmax_idem _ _ _ H Q) as I. clear - I. generalize (flat_map (fun x0 => x0 :: repeat x0 k) l). intros rest. induction k as [|k IH]; cbn [repeat app minmax_rows]; [reflexivity|]. rewrite I. exact IH.
Qed.
Theorem minmax_times (a b : X) w k l l' : 0 < k -> Permutation l' (times k l) -> minmax_fit a b (Mat l' w) = minmax_fit a b (Mat l w).
Proof.
  intros K P. rewrite (minmax_order a b w l' (flat_map (fun x => repeat x k) l)) by (rewrite P; apply times_perm). unfold minmax_fit. cbn [mcols mrows]. rewrite minmax_rows_times; auto.
  apply Forall_forall. intros p Hp. apply repeat_spec in Hp. subst. eexists _, _. reflexivity.
Qed.
Lemma col_var_times k (l : list (list R)) w : 0 < k -> 2 <= length l ->
  col_var (Mat (times k l) w) = map (fun v => (v * (INR k * (INR (length l) - 1) / (INR k * INR (length l) - 1)))%R) (col_var (Mat l w)).
Proof.
  intros K G. unfold col_var, nrows, col. cbn [mrows mcols]. rewrite times_length, map_map. apply map_ext. intros j. rewrite vsum_times. cbn [ndiv NumR nofnat]. rewrite div_times by exact K.
  rewrite map_map, vsum_times, map_map. rewrite !minus_INR by nia. rewrite mult_INR. cbn [INR]. set (z := vsum _).
  assert (1 <= INR k)%R by (change 1%R with (INR 1); apply le_INR; lia). assert (2 <= INR (length l))%R by (change 2%R with (INR 2); apply le_INR; lia). field. split; nra.
Qed.
Theorem standardizer_times (a b : R) w k l l' : 0 < k -> 2 <= length l -> Permutation l' (times k l) ->
  exists st, standardizer_fit a b (Mat l w) = Ok st /\
    standardizer_fit a b (Mat l' w) = Ok {| std_means := std_means st; std_variances := map (fun v => (v * (INR k * (INR (length l) - 1) / (INR k * INR (length l) - 1)))%R) (std_variances st); std_mean := a; std_stdev := b |}.
Proof.
  intros K G P. rewrite (standardizer_order a b w l' (times k l) P). unfold standardizer_fit, nrows. cbn [mrows]. rewrite times_length, col_mean_times, col_var_times by auto.
  assert (E1 : (k * length l <=? 1) = false) by (apply Nat.leb_gt; nia). assert (E2 : (length l <=? 1) = false) by (apply Nat.leb_gt; lia). rewrite E1, E2.
  assert (E : existsb (fun x : R => negb (nfinite x)) (col_mean (Mat l w)) = false). { clear. induction (col_mean (Mat l w)); cbn; auto. }
  rewrite E. eexists. split; reflexivity.
Qed.
(** ** Scores *)
Lemma ratio_times k a b : 0 < k -> ratio (k * a) (k * b) = ratio a b.
Proof.
  intros K. unfold ratio. destruct (Nat.eqb_spec b 0) as [->|N]; [now rewrite Nat.mul_0_r|]. destruct (Nat.eqb_spec (k * b) 0); [nia|]. f_equal. rewrite (mult_INR k a). now apply div_times.
Qed.
Lemma count2_app {T} (P : T -> T -> bool) a b : forall a' b', length a = length a' -> count2 P (a ++ b) (a' ++ b') = count2 P a a' + count2 P b b'.
Proof. induction a as [|x a IH]; intros [|y a'] b' L; try discriminate; [reflexivity|]. cbn [app count2]. rewrite IH by (cbn in L; lia). lia. Qed.
Lemma count2_times {T} (P : T -> T -> bool) k a a' : length a = length a' -> count2 P (times k a) (times k a') = k * count2 P a a'.
Proof. intros L. unfold Spec_Equiv.times. induction k as [|k IH]; [reflexivity|]. cbn [repeat concat]. rewrite count2_app, IH by exact L. lia. Qed.
Lemma two_class_times {T} (zero one : T) k l : 0 < k -> two_class zero one (times k l) <-> two_class zero one l.
Proof.
  intros K. unfold two_class, Spec_Equiv.times. split; intros H x I; apply H.
  - destruct k; [lia|]. cbn. apply in_or_app. auto.
  - clear - I. induction k as [|k IH]; [destruct I|]. cbn in I. apply in_app_or in I as []; auto.
Qed.
Section Scores.
  Context {T : Type} (eqb : T -> T -> bool) (Heq : forall x y, eqb x y = true <-> x = y) (zero one : T) (Hne : zero <> one).
  Theorem scores_times k (os ts : list T) : 0 < k -> length os = length ts ->
    accuracy (F := X) eqb (times k os) (times k ts) = accuracy eqb os ts /\ precision (F := X) eqb zero one (times k os) (times k ts) = precision eqb zero one os ts /\
    recall (F := X) eqb zero one (times k os) (times k ts) = recall eqb zero one os ts /\ f1 (F := X) eqb zero one (times k os) (times k ts) = f1 eqb zero one os ts.
  Proof.
    intros K L. split.
    - rewrite !accuracy_spec, !times_length, L, !Nat.eqb_refl, count2_times, ratio_times by auto. reflexivity.
    - destruct (two_class_scores eqb Heq zero one Hne os ts) as [A B]. destruct (two_class_scores eqb Heq zero one Hne (times k os) (times k ts)) as [A' B'].
      assert (L' : length (times k os) = length (times k ts)) by (rewrite !times_length; lia).
      assert (D : {two_class zero one os /\ two_class zero one ts} + {~ (two_class zero one os /\ two_class zero one ts)}).
      { assert (D : forall l, {two_class zero one l} + {~ two_class zero one l}).
        { intros l. destruct (forallb (fun x => eqb x zero || eqb x one) l) eqn:E; [left|right].
          - intros x I. rewrite forallb_forall in E. specialize (E x I). apply orb_true_iff in E as [E|E]; apply Heq in E; auto.
          - intros H. apply not_true_iff_false in E. apply E, forallb_forall. intros x I. apply orb_true_iff. rewrite !Heq. apply H, I. }
        destruct (D os), (D ts); tauto. }
      destruct D as [[D1 D2]|D].
      + destruct (B L D1 D2) as (-> & -> & ->). destruct (B' L') as (-> & -> & ->); [now apply two_class_times|now apply two_class_times|]. unfold TP, FP, FN.
        rewrite !count2_times by auto. set (tp := count2 _ _ _). set (fp := count2 _ _ _). set (fn := count2 _ _ _).
        replace (k * tp + k * fp) with (k * (tp + fp)) by ring. replace (k * tp + k * fn) with (k * (tp + fn)) by ring. replace (2 * (k * tp) + k * fp + k * fn) with (k * (2 * tp + fp + fn)) by ring.
        replace (2 * (k * tp)) with (k * (2 * tp)) by ring. now rewrite !ratio_times by exact K.
      + destruct (A (or_intror D)) as (-> & -> & ->). destruct A' as (-> & -> & ->); [right; rewrite !two_class_times by exact K; exact D|]. auto.
  Qed.
End Scores.
Theorem nmse_times w k (l : list (list R * list R)) : 0 < k ->
  neg_mean_squared_error (Mat (map fst (times k l)) w) (Mat (map snd (times k l)) w) = neg_mean_squared_error (Mat (map fst l) w) (Mat (map snd l) w).
Proof.
  intros K. unfold neg_mean_squared_error, mse_cost, same_shape, msum, mzip, nrows. cbn [mrows mcols].
  rewrite !map_length, !Nat.eqb_refl. cbn [andb rassert rbind]. rewrite !map2_maps, !map_map, !map_length, times_length, vsum_times. do 2 f_equal.
  cbn [ndiv nmul nadd nonev NumR nofnat]. set (z := vsum _). pose proof (INR_pos k K). destruct l as [|p l]; [change z with 0%R; unfold Rdiv; ring|].
  rewrite mult_INR. field. split; [|auto]. apply INR_pos. cbn. lia.
Qed.
