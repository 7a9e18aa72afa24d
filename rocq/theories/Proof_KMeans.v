(** * k-means: assignments, means, the objective *)
From Coq Require Import List Arith Lia Bool Reals Lra Permutation.
From Verif Require Import Base BaseLemmas Num NumOrd ArgLemmas Linalg LinalgR Euclid Spec_Calc CalcR Model_KMeans Spec_KNN Spec_KMeans.
Import ListNotations.

(** ** Closest centroid *)
Section Gen.
  Context {F : Type} {N : Num F} {O : NumOrd F}.
  Lemma closest_spec (C : matrix F) w x : mcols C = w -> 0 < nrows C ->
    (forall i, i < nrows C -> nnan (sqdist (nth i (mrows C) []) x) = false) ->
    exists j, closest C w x = Ok (j, sqdist (nth j (mrows C) []) x) /\
      is_closest (nrows C) (fun i => sqdist (nth i (mrows C) []) x) j.
  Proof.
    intros W K NN. unfold closest. rewrite W, Nat.eqb_refl. cbn [rassert].
    set (ds := map (fun c => sqdist c x) (mrows C)).
    assert (Ld : length ds = nrows C) by (unfold ds; now rewrite map_length).
    assert (Nd : forall j, j < nrows C -> nth j ds nzero = sqdist (nth j (mrows C) []) x).
    { intros j Hj. unfold ds. rewrite (nth_indep _ nzero (sqdist [] x)) by (rewrite map_length; exact Hj).
      now rewrite (map_nth (fun c => sqdist c x)). }
    destruct (argmin_spec ds) as (k & v & Ea & Hk & Nk & Mn & Fi).
    - intros E0. rewrite E0 in Ld. cbn in Ld. lia.
    - intros y Hy. destruct (In_nth _ _ nzero Hy) as (j & Hj & <-). rewrite Nd by lia. apply NN. lia.
    - rewrite Ea. rewrite Ld in *. rewrite Nd in Nk by auto. exists k. rewrite Nk. split; auto.
      split; auto. split.
      + intros j Hj. rewrite <- Nd, Nk by auto. now apply Mn.
      + intros j Hj. rewrite <- (Nd j), Nk by lia. now apply Fi.
  Qed.
  Lemma find_closest_spec (C X : matrix F) : mcols C = mcols X -> 0 < nrows C ->
    (forall x i, In x (mrows X) -> i < nrows C -> nnan (sqdist (nth i (mrows C) []) x) = false) ->
    exists idx, find_closest_centroids C X = Ok (idx, map2 (fun j x => sqdist (nth j (mrows C) []) x) idx (mrows X)) /\
      Forall2 (fun j x => is_closest (nrows C) (fun i => sqdist (nth i (mrows C) []) x) j) idx (mrows X).
  Proof.
    intros W K NN. unfold find_closest_centroids.
    assert (Q : forall rows, (forall r, In r rows -> In r (mrows X)) -> exists idx,
       rmap (closest C (mcols X)) rows = Ok (map2 (fun j x => (j, sqdist (nth j (mrows C) []) x)) idx rows) /\
       Forall2 (fun j x => is_closest (nrows C) (fun i => sqdist (nth i (mrows C) []) x) j) idx rows).
    { induction rows as [|r rows IH]; intros IN; cbn [rmap]; [exists []; auto|].
      destruct IH as (idx & E & H); [intros; apply IN; now right|]. rewrite E.
      destruct (closest_spec C (mcols X) r W K) as (j & Ej & Hj).
      { intros i Hi. apply NN; auto. apply IN. now left. }
      rewrite Ej. cbn [rbind]. exists (j :: idx). auto. }
    destruct (Q (mrows X)) as (idx & E & H); auto. rewrite E. cbn [rbind]. exists idx. split; auto.
    f_equal. f_equal.
    - clear - H. induction H; cbn; congruence.
    - now rewrite map_map2.
  Qed.
End Gen.

Lemma nltb_R' (x y : R) : nltb x y = true <-> (x < y)%R.
Proof. cbn. destruct (Rlt_dec x y); split; intros; auto; try discriminate; contradiction. Qed.
Lemma nltb_R_false (x y : R) : nltb x y = false <-> (y <= x)%R.
Proof. cbn. destruct (Rlt_dec x y); split; intros; auto; try discriminate; lra. Qed.
Lemma is_closest_R_iff k (D : nat -> R) j : is_closest k D j <-> is_closest_R k D j.
Proof.
  unfold is_closest, is_closest_R. split; intros (A & B & C); split; auto; split; intros i Hi.
  - now apply nltb_R_false, B.
  - now apply nltb_R', C.
  - now apply nltb_R_false, B.
  - now apply nltb_R', C.
Qed.

Lemma rsum_map2_nth (f : R -> R -> R) a b n : length a = n -> length b = n ->
  rsum (map2 f a b) = sumR n (fun i => f (nth i a 0%R) (nth i b 0%R)).
Proof.
  intros A B. rewrite rsum_nth, map2_length, A, B, Nat.min_id. apply sumR_ext. intros i Hi.
  apply nth_map2_0; lia.
Qed.
Lemma sqdist_R n (c x : list R) : length c = n -> length x = n ->
  sqdist c x = sumR n (fun j => (nth j c 0 - nth j x 0) ^ 2)%R.
Proof.
  intros A B. unfold sqdist. rewrite vsum_R. unfold velemul.
  assert (E : map2 nmul (vsub c x) (vsub c x) = map2 (fun a b => (a - b) * (a - b))%R c x).
  { clear. unfold vsub. revert x. induction c as [|a c IH]; intros [|b x]; cbn; auto. f_equal. apply IH. }
  rewrite E, (rsum_map2_nth _ c x n A B). apply sumR_ext. intros. ring.
Qed.
Lemma rsum_seq f n : rsum (map f (seq 0 n)) = sumR n f.
Proof.
  rewrite rsum_nth, map_length, seq_length. apply sumR_ext. intros i Hi.
  rewrite (nth_indep _ 0%R (f 0)) by (now rewrite map_length, seq_length). rewrite map_nth, seq_nth by auto. reflexivity.
Qed.
Lemma fold_rsum l : fold_right Rplus 0%R l = rsum l.
Proof. induction l; cbn; congruence. Qed.
Lemma sqdist_euclid n (c x : list R) : length c = n -> length x = n -> sqdist c x = (euclid n x c ^ 2)%R.
Proof.
  intros A B. rewrite (sqdist_R n) by auto. unfold euclid. rewrite fold_rsum, rsum_seq, pow2_sqrt.
  - apply sumR_ext. intros. ring.
  - apply sumR_ge0. intros. apply pow2_ge_0.
Qed.

Lemma Forall2_nth_iff {A B} (P : A -> B -> Prop) l1 l2 da db : Forall2 P l1 l2 ->
  length l1 = length l2 /\ forall i, i < length l1 -> P (nth i l1 da) (nth i l2 db).
Proof.
  induction 1 as [|x y l1 l2 H H2 IH]; [split; auto; cbn; lia|]. destruct IH as [L IH]. split; [cbn; lia|].
  intros [|i] Hi; cbn in *; auto. apply IH. lia.
Qed.
Lemma mwf_row {F} (m : matrix F) i : mwf m -> i < nrows m -> length (nth i (mrows m) []) = mcols m.
Proof. intros W Hi. unfold mwf in W. rewrite Forall_forall in W. apply W. now apply nth_In. Qed.

Lemma euclid_closest k (D D' : nat -> R) j : (forall i, i < k -> (D i = D' i ^ 2 /\ 0 <= D' i)%R) ->
  is_closest_R k D j -> is_closest_R k D' j.
Proof.
  intros E (A & B & C). split; auto. split.
  - intros i Hi. destruct (E i Hi) as [E1 P1]. destruct (E j A) as [E2 P2]. specialize (B i Hi). rewrite E1, E2 in B.
    destruct (Rle_lt_dec (D' j) (D' i)); auto. exfalso. assert (D' i ^ 2 < D' j ^ 2)%R; [|lra]. cbn. nra.
  - intros i Hi. assert (Hik : i < k) by lia. destruct (E i Hik) as [E1 P1]. destruct (E j A) as [E2 P2]. specialize (C i Hi). rewrite E1, E2 in C.
    destruct (Rlt_le_dec (D' j) (D' i)); auto. exfalso. assert (D' i ^ 2 <= D' j ^ 2)%R; [|lra]. cbn. nra.
Qed.

Theorem predict_real (m : KMeans R) (C X : matrix R) : km_centroids m = Some C -> mwf C -> mwf X -> mcols C = mcols X -> 0 < nrows C ->
  exists idx, km_predict m X = Ok idx /\ length idx = nrows X /\
    forall i, i < nrows X -> is_closest_R (nrows C) (fun c => euclid (mcols X) (nth i (mrows X) []) (nth c (mrows C) [])) (nth i idx 0).
Proof.
  intros E WC WX W K. unfold km_predict. rewrite E.
  destruct (find_closest_spec C X W K) as (idx & Ei & H); [reflexivity|]. rewrite Ei. cbn [rbind]. exists idx. split; auto.
  destruct (Forall2_nth_iff _ _ _ 0 [] H) as [L Hn]. split; [exact L|]. intros i Hi. specialize (Hn i ltac:(rewrite L; exact Hi)). cbn in Hn. apply is_closest_R_iff in Hn.
  eapply euclid_closest; [|exact Hn]. intros c Hc. split.
  - apply sqdist_euclid; [rewrite mwf_row; auto|now apply mwf_row].
  - unfold euclid. apply sqrt_pos.
Qed.
Theorem predict_gen {F} {N : Num F} {O : NumOrd F} (m : KMeans F) (C X : matrix F) : km_centroids m = Some C -> mcols C = mcols X -> 0 < nrows C ->
  (forall x i, In x (mrows X) -> i < nrows C -> nnan (sqdist (nth i (mrows C) []) x) = false) ->
  exists idx, km_predict m X = Ok idx /\ length idx = nrows X /\
    forall i, i < nrows X -> is_closest (nrows C) (fun c => sqdist (nth c (mrows C) []) (nth i (mrows X) [])) (nth i idx 0).
Proof.
  intros E W K NN. unfold km_predict. rewrite E.
  destruct (find_closest_spec C X W K NN) as (idx & Ei & H). rewrite Ei. cbn [rbind]. exists idx. split; auto.
  destruct (Forall2_nth_iff _ _ _ 0 [] H) as [L Hn]. split; [exact L|]. intros i Hi. apply Hn. rewrite L. exact Hi.
Qed.
Theorem predict_bad {F} {N : Num F} (m : KMeans F) (X : matrix F) :
  (km_centroids m = None -> km_predict m X = Err UntrainedModel) /\
  (forall C, km_centroids m = Some C -> 0 < nrows X -> mcols C <> mcols X -> km_predict m X = Panic).
Proof.
  unfold km_predict. split; [now intros ->|]. intros C -> K W. unfold find_closest_centroids.
  destruct X as [[|x rows] w]; [unfold nrows in K; cbn in K; lia|]. cbn [mrows rmap]. unfold closest. cbn in W.
  assert (E : (mcols C =? mcols {| mrows := x :: rows; mcols := w |}) = false) by (apply Nat.eqb_neq; exact W). rewrite E. reflexivity.
Qed.

(** ** New centroids *)
Lemma rows_opt_spec {A} (rows : list A) idx d : Forall (fun i => i < length rows) idx ->
  rows_opt rows idx = Some (map (fun i => nth i rows d) idx).
Proof.
  induction idx as [|i idx IH]; intros H; cbn; auto. inversion H; subst. rewrite (nth_error_nth' _ d) by auto.
  now rewrite IH.
Qed.
Lemma select_rows_spec {F} (m : matrix F) idx : Forall (fun i => i < nrows m) idx ->
  select_rows m idx = Ok (Mat (map (fun i => nth i (mrows m) []) idx) (mcols m)).
Proof. intros H. unfold select_rows. now rewrite (rows_opt_spec _ _ []). Qed.
Lemma class_rows_lt cl c : Forall (fun i => i < length cl) (class_rows cl c).
Proof. apply Forall_forall. intros i Hi. apply filter_In in Hi. destruct Hi as [Hi _]. apply in_seq in Hi. lia. Qed.

Section Update.
  Context {F : Type} {N : Num F}.
  Lemma rmap_ok {A B} (f : A -> res B) (g : A -> B) l : (forall a, In a l -> f a = Ok (g a)) -> rmap f l = Ok (map g l).
  Proof.
    induction l as [|a l IH]; intros H; cbn; auto. rewrite (H a) by (now left). cbn. rewrite IH by (intros; apply H; now right). reflexivity.
  Qed.
  Definition class_mean (X : matrix F) (cl : list nat) (c : nat) : list F :=
    col_mean (Mat (map (fun i => nth i (mrows X) []) (class_rows cl c)) (mcols X)).
  Lemma update_spec k (X : matrix F) cl : length cl = nrows X ->
    update_centroids k X cl = Ok (Mat (map (class_mean X cl) (seq 0 k)) (mcols X)).
  Proof.
    intros L. unfold update_centroids. rewrite (rmap_ok _ (class_mean X cl)); auto.
    intros c _. rewrite select_rows_spec; auto. rewrite <- L. apply class_rows_lt.
  Qed.
End Update.

Lemma rsum_map_filter {A} (p : A -> bool) (f : A -> R) l : rsum (map f (filter p l)) = rsum (map (fun a => if p a then f a else 0%R) l).
Proof. induction l as [|a l IH]; cbn; auto. destruct (p a); cbn; rewrite IH; lra. Qed.
Lemma rsum_ones {A} (l : list A) : rsum (map (fun _ => 1%R) l) = INR (length l).
Proof. rewrite rsum_map_const. lra. Qed.

Lemma class_count cl c n : length cl = n -> INR (length (class_rows cl c)) = sumR n (fun i => if nth i cl 0%nat =? c then 1 else 0)%R.
Proof.
  intros L. rewrite <- rsum_ones. unfold class_rows. rewrite rsum_map_filter, rsum_seq, L. apply sumR_ext. intros i Hi.
  now rewrite (nth_indep cl (S c) 0) by lia.
Qed.
Lemma class_mean_entry (X : matrix R) cl c j : length cl = nrows X -> j < mcols X ->
  nth j (class_mean X cl c) 0%R =
  (sumR (nrows X) (fun i => if nth i cl 0%nat =? c then entry X i j else 0) / INR (length (class_rows cl c)))%R.
Proof.
  intros L Hj. unfold class_mean, col_mean. cbn [mcols].
  match goal with |- context [map ?f _] => set (g := f) end.
  rewrite (nth_indep _ 0%R (g 0)) by (now rewrite map_length, seq_length). rewrite map_nth, seq_nth by auto. cbn [plus]. unfold g.
  unfold nrows at 1. cbn [mrows]. rewrite map_length. cbn [ndiv nofnat NumR]. f_equal. rewrite vsum_R. unfold col. cbn [mrows].
  rewrite map_map. unfold class_rows. rewrite rsum_map_filter, rsum_seq, L. apply sumR_ext. intros i Hi.
  rewrite (nth_indep cl (S c) 0) by lia. reflexivity.
Qed.
Lemma class_mean_length {F} {N : Num F} (X : matrix F) cl c : length (class_mean X cl c) = mcols X.
Proof. unfold class_mean, col_mean. now rewrite map_length, seq_length. Qed.

Lemma class_rows_nonempty cl c : In c cl -> 0 < length (class_rows cl c).
Proof.
  intros H. destruct (In_nth _ _ (S c) H) as (i & Hi & E).
  assert (Q : In i (class_rows cl c)).
  { apply filter_In. split; [apply in_seq; lia|]. rewrite E. apply Nat.eqb_refl. }
  destruct (class_rows cl c); [easy|cbn; lia].
Qed.

Lemma entry_means (X : matrix R) cl k c j : c < k -> entry (Mat (map (class_mean X cl) (seq 0 k)) (mcols X)) c j = nth j (class_mean X cl c) 0%R.
Proof.
  intros Hc. unfold entry. cbn [mrows]. rewrite (nth_indep _ [] (class_mean X cl 0)) by (now rewrite map_length, seq_length).
  now rewrite map_nth, seq_nth by auto.
Qed.

Theorem update_means (X : matrix R) cl k : length cl = nrows X ->
  exists C, update_centroids k X cl = Ok C /\ mwf C /\ nrows C = k /\ mcols C = mcols X /\
    forall c, c < k -> In c cl -> is_mean_of X C cl c.
Proof.
  intros L. rewrite update_spec by auto. eexists. split; [reflexivity|]. split; [|split; [|split]].
  - unfold mwf. cbn [mrows mcols]. apply Forall_forall. intros r Hr. apply in_map_iff in Hr. destruct Hr as (c & <- & _). apply class_mean_length.
  - unfold nrows. cbn. now rewrite map_length, seq_length.
  - reflexivity.
  - intros c Hc IN j Hj. rewrite entry_means by auto. rewrite class_mean_entry by auto. rewrite <- class_count by auto. field.
    apply not_0_INR. pose proof (class_rows_nonempty cl c IN). lia.
Qed.

(** ** The objective *)
Lemma sumR_exch n m (f : nat -> nat -> R) : sumR n (fun i => sumR m (f i)) = sumR m (fun j => sumR n (fun i => f i j)).
Proof.
  induction n as [|n IH]; cbn [sumR].
  - symmetry. apply sumR_zero. auto.
  - rewrite IH, <- sumR_plus. reflexivity.
Qed.
Lemma sumR_minus n f g : sumR n (fun i => (f i - g i)%R) = (sumR n f - sumR n g)%R.
Proof. induction n; cbn [sumR]; [lra|]. rewrite IHn. lra. Qed.
Lemma sumR_pick n (f : nat -> R) j : j < n -> sumR n (fun c => if j =? c then f c else 0%R) = f j.
Proof.
  intros H. rewrite (sumR_single n _ j H).
  - now rewrite Nat.eqb_refl.
  - intros i _ Hi. destruct (Nat.eqb_spec j i); congruence.
Qed.

(** Replacing the centres [C] by class means [M] does not increase a column's sum of squares. *)
Lemma means_minimise n k (a : nat -> nat) (x : nat -> R) (M C : nat -> R) : (forall i, i < n -> a i < k) ->
  (forall c, c < k -> (M c * sumR n (fun i => if a i =? c then 1 else 0) = sumR n (fun i => if a i =? c then x i else 0))%R) ->
  (sumR n (fun i => (x i - M (a i)) ^ 2) <= sumR n (fun i => (x i - C (a i)) ^ 2))%R.
Proof.
  intros Ha HM.
  assert (Z : sumR n (fun i => ((M (a i) - C (a i)) * (x i - M (a i)))%R) = 0%R).
  { rewrite (sumR_ext n _ (fun i => sumR k (fun c => if a i =? c then ((M c - C c) * (x i - M c))%R else 0%R))).
    2:{ intros i Hi. symmetry. rewrite (sumR_pick k (fun c => ((M c - C c) * (x i - M c))%R)); auto. }
    rewrite sumR_exch. apply sumR_zero. intros c Hc.
    rewrite (sumR_ext n _ (fun i => ((M c - C c) * ((if a i =? c then x i else 0) - M c * (if a i =? c then 1 else 0)))%R)).
    2:{ intros i Hi. destruct (a i =? c); ring. }
    rewrite sumR_scal, sumR_minus, sumR_scal, <- HM by auto. ring. }
  assert (E : (sumR n (fun i => (x i - C (a i)) ^ 2) = sumR n (fun i => (x i - M (a i)) ^ 2) + sumR n (fun i => (M (a i) - C (a i)) ^ 2) +
     2 * sumR n (fun i => (M (a i) - C (a i)) * (x i - M (a i))))%R).
  { rewrite <- sumR_scal, <- !sumR_plus. apply sumR_ext. intros. ring. }
  rewrite Z in E. assert (0 <= sumR n (fun i => (M (a i) - C (a i)) ^ 2))%R by (apply sumR_ge0; intros; apply pow2_ge_0). lra.
Qed.

Lemma means_objective (X C M : matrix R) cl k : length cl = nrows X -> Forall (fun c => c < k) cl ->
  (forall c, c < k -> is_mean_of X M cl c \/ ~ In c cl) ->
  (objective X M cl <= objective X C cl)%R.
Proof.
  intros L Hcl HM. unfold objective. rewrite (sumR_exch _ _ (fun i c => ((entry X i c - entry M (nth i cl 0%nat) c) ^ 2)%R)). rewrite (sumR_exch _ _ (fun i c => ((entry X i c - entry C (nth i cl 0%nat) c) ^ 2)%R)).
  apply sumR_le. intros j Hj.
  set (M' := fun c => if in_dec Nat.eq_dec c cl then entry M c j else 0%R).
  rewrite (sumR_ext _ (fun i => ((entry X i j - entry M (nth i cl 0%nat) j) ^ 2)%R) (fun i => ((entry X i j - M' (nth i cl 0%nat)) ^ 2)%R)).
  2:{ intros i Hi. unfold M'. destruct in_dec as [_|H]; auto. exfalso. apply H, nth_In. lia. }
  apply (means_minimise (nrows X) k (fun i => nth i cl 0) (fun i => entry X i j) M' (fun c => entry C c j)).
  - intros i Hi. rewrite Forall_forall in Hcl. apply Hcl, nth_In. lia.
  - intros c Hc. unfold M'. destruct in_dec as [H|H].
    + destruct (HM c Hc) as [Q|Q]; [|contradiction]. apply Q. auto.
    + rewrite Rmult_0_l. symmetry. apply sumR_zero. intros i Hi. destruct (Nat.eqb_spec (nth i cl 0) c) as [E|]; auto.
      exfalso. apply H. rewrite <- E. apply nth_In. lia.
Qed.

Lemma ds_objective (X C : matrix R) idx : mwf X -> mwf C -> mcols C = mcols X -> length idx = nrows X -> Forall (fun c => c < nrows C) idx ->
  vsum (map2 (fun j x => sqdist (nth j (mrows C) []) x) idx (mrows X)) = objective X C idx.
Proof.
  intros WX WC W L HI. rewrite vsum_R, rsum_nth, map2_length, L. unfold nrows at 1. rewrite Nat.min_id. fold (nrows X).
  unfold objective. apply sumR_ext. intros i Hi. rewrite (map2_nth _ _ _ _ 0 []); [|lia|exact Hi].
  rewrite (sqdist_R (mcols X)).
  - apply sumR_ext. intros j Hj. unfold entry. ring.
  - rewrite mwf_row; auto. rewrite Forall_forall in HI. apply HI, nth_In. lia.
  - now apply mwf_row.
Qed.
Lemma reassign_objective (X C : matrix R) idx idx' : mwf X -> mwf C -> mcols C = mcols X -> length idx = nrows X -> length idx' = nrows X ->
  Forall (fun c => c < nrows C) idx' ->
  Forall2 (fun j x => is_closest (nrows C) (fun i => sqdist (nth i (mrows C) []) x) j) idx (mrows X) ->
  (objective X C idx <= objective X C idx')%R.
Proof.
  intros WX WC W L L' HI H. destruct (Forall2_nth_iff _ _ _ 0 [] H) as [_ Hn]. apply sumR_le. intros i Hi.
  specialize (Hn i ltac:(lia)). apply is_closest_R_iff in Hn. destruct Hn as (A & B & _).
  rewrite Forall_forall in HI. specialize (B (nth i idx' 0) ltac:(apply HI, nth_In; lia)).
  rewrite !(sqdist_R (mcols X)) in B.
  - eapply Rle_trans; [|eapply Rle_trans; [exact B|]]; apply Req_le; apply sumR_ext; intros j Hj; unfold entry; ring.
  - rewrite mwf_row; auto. apply HI, nth_In. lia.
  - now apply mwf_row.
  - rewrite mwf_row; auto.
  - now apply mwf_row.
Qed.

Theorem lloyd_step (X C : matrix R) : mwf X -> mwf C -> mcols C = mcols X -> 0 < nrows C ->
  exists idx ds C', find_closest_centroids C X = Ok (idx, ds) /\ vsum ds = objective X C idx /\
    update_centroids (nrows C) X idx = Ok C' /\ mwf C' /\ nrows C' = nrows C /\ mcols C' = mcols X /\
    (forall c, c < nrows C -> In c idx -> is_mean_of X C' idx c) /\
    (objective X C' idx <= objective X C idx)%R /\
    exists idx' ds', find_closest_centroids C' X = Ok (idx', ds') /\ vsum ds' = objective X C' idx' /\
      (objective X C' idx' <= objective X C' idx)%R.
Proof.
  intros WX WC W K. destruct (find_closest_spec C X W K) as (idx & Ei & H); [reflexivity|].
  destruct (Forall2_nth_iff _ _ _ 0 [] H) as [L Hn].
  assert (HI : Forall (fun c => c < nrows C) idx).
  { apply Forall_forall. intros c Hc. destruct (In_nth _ _ 0 Hc) as (i & Hi & <-). apply (Hn i Hi). }
  destruct (update_means X idx (nrows C) L) as (C' & Eu & WC' & K' & W' & Mn).
  destruct (find_closest_spec C' X W') as (idx' & Ei' & H'); [rewrite K'; auto|reflexivity|].
  destruct (Forall2_nth_iff _ _ _ 0 [] H') as [L' Hn'].
  assert (HI' : Forall (fun c => c < nrows C') idx').
  { apply Forall_forall. intros c Hc. destruct (In_nth _ _ 0 Hc) as (i & Hi & <-). apply (Hn' i Hi). }
  exists idx, (map2 (fun j x => sqdist (nth j (mrows C) []) x) idx (mrows X)), C'.
  split; [exact Ei|]. split; [now apply ds_objective|]. split; [exact Eu|]. split; auto. split; auto. split; auto. split; auto. split.
  - apply (means_objective X C C' idx (nrows C)); auto. intros c Hc. destruct (in_dec Nat.eq_dec c idx); auto.
  - exists idx', (map2 (fun j x => sqdist (nth j (mrows C') []) x) idx' (mrows X)). split; [exact Ei'|]. split; [now apply ds_objective|].
    apply reassign_objective; auto. now rewrite K'.
Qed.
