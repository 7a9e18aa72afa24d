(** * Rows at the centroids change nothing in k-means (C193) *)
From Coq Require Import List Arith Lia Bool Reals Lra.
From Verif Require Import Base BaseLemmas Num NumOrd Linalg LinalgR Euclid Spec_Calc CalcR Model_KMeans Spec_KNN Spec_KMeans Proof_KMeans Spec_Agree.
From Verif Require Proof_Agree.
Import ListNotations.

Lemma rmap_app_ok {A B} (f : A -> res B) l l' u v : rmap f l = Ok u -> rmap f l' = Ok v -> rmap f (l ++ l') = Ok (u ++ v).
Proof.
  revert u. induction l as [|x l IH]; intros u H H'; cbn in *; [injection H as <-; exact H'|].
  destruct (f x) as [y| |]; [|discriminate|discriminate]. cbn in *. destruct (rmap f l) as [w| |]; [|discriminate|discriminate]. cbn in H. injection H as <-.
  rewrite (IH w eq_refl H'). reflexivity.
Qed.
Lemma find_app (C M Z : matrix R) a ds b es : mcols Z = mcols M -> find_closest_centroids C M = Ok (a, ds) -> find_closest_centroids C Z = Ok (b, es) ->
  find_closest_centroids C (stacked M Z) = Ok (a ++ b, ds ++ es).
Proof.
  intros E H H'. unfold find_closest_centroids in *. cbn [stacked mrows mcols]. rewrite E in H'.
  destruct (rmap (closest C (mcols M)) (mrows M)) as [u| |] eqn:U; try discriminate. destruct (rmap (closest C (mcols M)) (mrows Z)) as [v| |] eqn:V; try discriminate.
  rewrite (rmap_app_ok _ _ _ _ _ U V). cbn in *. injection H as <- <-. injection H' as <- <-. now rewrite !map_app.
Qed.

Section AgreeKM.
  Variables (M Z C : matrix R) (a : list nat) (ds : list R) (k : nat).
  Hypothesis WM : mwf M.
  Hypothesis WZ : mwf Z.
  Hypothesis CZ : mcols Z = mcols M.
  Hypothesis K : 0 < k.
  Hypothesis Ha : find_closest_centroids C M = Ok (a, ds).
  Hypothesis La : length a = nrows M.
  Hypothesis Full : nonempty a k.
  Hypothesis Fix : update_centroids k M a = Ok C.
  Hypothesis At : Forall (fun z => In z (mrows C)) (mrows Z).

  Lemma C_is : C = Mat (map (class_mean M a) (seq 0 k)) (mcols M).
  Proof. rewrite update_spec in Fix by exact La. now injection Fix as <-. Qed.
  Lemma C_shape : mwf C /\ nrows C = k /\ mcols C = mcols M.
  Proof.
    destruct (update_means M a k La) as (C' & E & W & N & L & _). rewrite Fix in E. injection E as <-. auto.
  Qed.
  Lemma found_at : exists b es, find_closest_centroids C Z = Ok (b, es) /\ length b = nrows Z /\ forall i, i < nrows Z -> nth i b 0 < k /\ nth (nth i b 0) (mrows C) [] = nth i (mrows Z) [].
  Proof.
    destruct C_shape as (W & N & L). destruct (find_closest_spec C Z) as (b & E & H); [congruence|lia|reflexivity|].
    exists b. eexists. split; [exact E|]. destruct (Forall2_nth_iff _ _ _ 0 [] H) as (Lb & Hb). split; [exact Lb|].
    intros i Hi. assert (Hi' : i < length b) by (unfold nrows in Hi; lia). specialize (Hb i Hi'). apply is_closest_R_iff in Hb. destruct Hb as (J & Least & _). split; [lia|].
    assert (Iz : In (nth i (mrows Z) []) (mrows C)) by exact (proj1 (Forall_forall _ _) At _ (nth_In _ _ Hi)).
    destruct (In_nth _ _ [] Iz) as (c & Hc & Ec). specialize (Least c Hc). rewrite Ec in Least.
    assert (Lz : length (nth i (mrows Z) []) = mcols C) by (rewrite (mwf_row Z i WZ Hi); congruence).
    assert (Lc : length (nth (nth i b 0) (mrows C) []) = mcols C) by (apply mwf_row; auto).
    rewrite (sqdist_R (mcols C) _ _ Lc Lz) in Least. rewrite (sqdist_R (mcols C) _ _ Lz Lz) in Least.
    rewrite (BaseLemmas.sumR_zero (mcols C) (fun j => (nth j (nth i (mrows Z) []) 0 - nth j (nth i (mrows Z) []) 0) ^ 2)%R) in Least by (intros; ring).
    apply (nth_ext _ _ 0%R 0%R); [congruence|]. intros j Hj. rewrite Lc in Hj.
    pose proof (sumR_ge_term (mcols C) (fun j => (nth j (nth (nth i b 0%nat) (mrows C) []) 0 - nth j (nth i (mrows Z) []) 0) ^ 2)%R j ltac:(intros; apply pow2_ge_0) Hj) as T. cbn beta in T. nra.
  Qed.

  Lemma sum_stacked (b : list nat) (f g : nat -> R) c : length b = nrows Z -> (forall i, i < nrows M -> f i = g i) ->
    sumR (nrows (stacked M Z)) (fun i => if nth i (a ++ b) 0%nat =? c then f i else 0)%R =
    (sumR (nrows M) (fun i => if nth i a 0%nat =? c then g i else 0) + sumR (nrows Z) (fun i => if nth i b 0%nat =? c then f (nrows M + i)%nat else 0))%R.
  Proof.
    intros Lb H. rewrite Proof_Agree.stacked_nrows, Proof_Agree.sumR_app. f_equal; apply sumR_ext; intros i Hi.
    - rewrite app_nth1 by lia. now rewrite H.
    - rewrite app_nth2 by lia. now replace (nrows M + i - length a) with i by lia.
  Qed.

  Lemma step_stacked : exists b es, find_closest_centroids C (stacked M Z) = Ok (a ++ b, ds ++ es) /\ update_centroids k (stacked M Z) (a ++ b) = Ok C.
  Proof.
    destruct found_at as (b & es & E & Lb & Hb). exists b, es. split; [now apply find_app|].
    assert (Lab : length (a ++ b) = nrows (stacked M Z)) by (rewrite app_length, Proof_Agree.stacked_nrows; lia).
    rewrite update_spec by exact Lab. rewrite C_is at 1. f_equal. f_equal. apply map_ext_in. intros c Hc. apply in_seq in Hc.
    apply (nth_ext _ _ 0%R 0%R); [now rewrite !class_mean_length|]. intros j Hj. rewrite class_mean_length in Hj. cbn [stacked mcols] in Hj.
    rewrite (class_mean_entry (stacked M Z)) by auto.
    assert (Ee : nth j (class_mean M a c) 0%R = entry C c j) by (rewrite C_is; symmetry; apply entry_means; lia).
    pose proof (class_mean_entry M a c j La Hj) as Em. rewrite Ee in Em. rewrite Ee.
    pose proof (class_rows_nonempty a c (Full c ltac:(lia))) as P. apply lt_0_INR in P.
    rewrite (class_count (a ++ b) c _ Lab). rewrite (class_count a c _ La) in Em, P.
    rewrite (sum_stacked b (fun i => entry (stacked M Z) i j) (fun i => entry M i j) c Lb) by (intros i Hi; unfold entry; now rewrite Proof_Agree.stacked_old).
    rewrite (sum_stacked b (fun _ => 1%R) (fun _ => 1%R) c Lb) by reflexivity.
    set (nM := sumR (nrows M) (fun i => if nth i a 0%nat =? c then 1 else 0)%R) in *.
    set (nZ := sumR (nrows Z) (fun i => if nth i b 0%nat =? c then 1 else 0)%R).
    replace (sumR (nrows Z) (fun i => if nth i b 0%nat =? c then entry (stacked M Z) (nrows M + i) j else 0)%R) with (entry C c j * nZ)%R.
    - assert (0 <= nZ)%R by (apply sumR_ge0; intros i _; destruct (_ =? _); lra). rewrite Em. field. lra.
    - unfold nZ. rewrite <- sumR_scal. apply sumR_ext. intros i Hi. destruct (nth i b 0 =? c) eqn:Q; [|ring]. apply Nat.eqb_eq in Q.
      unfold entry. rewrite Proof_Agree.stacked_new by exact CZ. rewrite <- (proj2 (Hb i Hi)), Q. ring.
  Qed.
  Lemma lloyd_stacked tol iters : forall cost, lloyd tol k (stacked M Z) iters cost C = Ok C.
  Proof.
    destruct step_stacked as (b & es & E & U). induction iters as [|n IH]; intros cost; cbn [lloyd]; [reflexivity|].
    rewrite E. cbn [rbind]. rewrite U. cbn [rbind]. destruct (nltb _ _); [reflexivity|apply IH].
  Qed.
End AgreeKM.

Theorem km_agree (tol : R) (m : KMeans R) (M Z C : matrix R) a : mwf M -> mwf Z -> mcols Z = mcols M -> (0 < km_k m <= nrows M) ->
  km_centroids m = Some C -> km_predict m M = Ok a -> nonempty a (km_k m) ->
  km_train tol (Ok C) {| km_iters := 1; km_k := km_k m; km_centroids := None |} M = ({| km_iters := 1; km_k := km_k m; km_centroids := Some C |}, Ok tt) ->
  Forall (fun z => In z (mrows C)) (mrows Z) ->
  km_train tol (Ok C) m (stacked M Z) = (m, Ok tt).
Proof.
  intros WM WZ CZ K Em P Full T At. unfold km_predict in P. rewrite Em in P.
  destruct (find_closest_centroids C M) as [[a' ds]| |] eqn:E; try discriminate. cbn in P. injection P as ->.
  unfold km_train in T. cbn [km_k km_iters] in T. unfold init_centroids in T. cbn [km_k] in T.
  destruct (nrows M <? km_k m) eqn:Q; [discriminate|]. cbn [rbind] in T. destruct (negb (nrows C =? km_k m)) eqn:Q1; [discriminate|]. destruct (negb (mcols C =? mcols M)) eqn:Q2; [discriminate|].
  cbn [lloyd] in T. rewrite E in T. cbn [rbind] in T.
  assert (La : length a = nrows M).
  { apply negb_false_iff, Nat.eqb_eq in Q1. apply negb_false_iff, Nat.eqb_eq in Q2. destruct (find_closest_spec C M Q2 ltac:(lia)) as (i & Ei & H); [reflexivity|]. rewrite E in Ei. injection Ei as -> _. exact (proj1 (Forall2_nth_iff _ _ _ 0 [] H)). }
  destruct (update_centroids (km_k m) M a) as [C'| |] eqn:U; cbn [rbind] in T; try discriminate.
  assert (C' = C) as -> by (destruct (nltb _ _) in T; unfold km_set in T; cbn in T; congruence). clear T.
  unfold km_train, init_centroids. rewrite Proof_Agree.stacked_nrows. replace (nrows M + nrows Z <? km_k m) with false by (symmetry; apply Nat.ltb_ge; lia).
  cbn [rbind stacked mcols]. rewrite Q1, Q2. fold (stacked M Z).
  rewrite (lloyd_stacked M Z C a ds (km_k m) WZ CZ (proj1 K) E La Full U At). unfold km_set. destruct m as [i kk c]. cbn in *. now rewrite Em.
Qed.

(** ** A concrete case *)
Definition settled_data : matrix R := Mat [[0]; [2]; [10]]%R 1.
Definition settled_model : KMeans R := {| km_iters := 7; km_k := 2; km_centroids := Some (Mat [[1]; [10]]%R 1) |}.
Definition settled_more : matrix R := Mat [[10]; [1]; [1]]%R 1.
Lemma settled_found : find_closest_centroids (Mat [[1]; [10]]%R 1) settled_data = Ok ([0; 0; 1], [1; 1; 0]%R).
Proof.
  destruct (find_closest_spec (Mat [[1]; [10]]%R 1) settled_data) as (i & E & H); [reflexivity|cbn; lia|reflexivity|].
  assert (i = [0; 0; 1]) as ->.
  { inversion H as [|i0 ? r0 ? H0 T0 E0 F0]; subst. inversion T0 as [|i1 ? ? ? H1 T1]; subst. inversion T1 as [|i2 ? ? ? H2 T2]; subst. inversion T2; subst.
    apply is_closest_R_iff in H0, H1, H2. destruct H0 as (A0 & B0 & _), H1 as (A1 & B1 & _), H2 as (A2 & B2 & _). cbn in A0, A1, A2.
    specialize (B0 0 ltac:(cbn; lia)). specialize (B1 0 ltac:(cbn; lia)). specialize (B2 1 ltac:(cbn; lia)).
    unfold sqdist, vsub, velemul, vsum in *.
    destruct i0 as [|[|]]; [| |lia]; [|cbn in B0; lra]. destruct i1 as [|[|]]; [| |lia]; [|cbn in B1; lra]. destruct i2 as [|[|]]; [cbn in B2; lra| |lia]. reflexivity. }
  rewrite E. f_equal. f_equal. unfold sqdist, vsub, velemul, vsum. cbn. repeat (apply (f_equal2 cons); [ring|]). reflexivity.
Qed.
Lemma settled_case : mwf settled_data /\ mwf settled_more /\ 0 < km_k settled_model <= nrows settled_data /\ km_predict settled_model settled_data = Ok [0; 0; 1] /\ nonempty [0; 0; 1] 2 /\
  (forall tol, km_train tol (Ok (Mat [[1]; [10]]%R 1)) {| km_iters := 1; km_k := 2; km_centroids := None |} settled_data = ({| km_iters := 1; km_k := 2; km_centroids := Some (Mat [[1]; [10]]%R 1) |}, Ok tt)) /\
  Forall (fun z => In z [[1]; [10]]%R) (mrows settled_more).
Proof.
  split; [repeat constructor|]. split; [repeat constructor|]. split; [cbn; lia|]. split; [unfold km_predict; cbn [settled_model km_centroids]; rewrite settled_found; reflexivity|].
  split; [intros [|[|c]] Hc; cbn; auto; lia|]. split.
  - intros tol. unfold km_train, init_centroids. cbn [km_k km_iters settled_data nrows mrows length Nat.ltb Nat.leb rbind Nat.eqb negb mcols lloyd]. fold settled_data. rewrite settled_found. cbn [rbind].
    rewrite update_spec by reflexivity. cbn [rbind].
    assert (Mat (map (class_mean settled_data [0; 0; 1]) (seq 0 2)) (mcols settled_data) = Mat [[1]; [10]]%R 1) as ->.
    { unfold class_mean, class_rows, col_mean. cbn. f_equal. apply (f_equal2 cons); [|apply (f_equal2 cons); [|reflexivity]]; apply (f_equal2 cons); try reflexivity; lra. }
    now destruct (nltb _ _).
  - repeat (constructor; [cbn; auto|]). constructor.
Qed.
