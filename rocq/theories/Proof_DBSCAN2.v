(** * DBSCAN: monotonicity, rounding, similarity invariance, depth of recursion *)
From Coq Require Import List Arith Lia Bool Permutation Reals Lra ZArith Relations.
From Flocq Require Import Core BinarySingleNaN.
From Verif Require Import Base BaseLemmas Num NumF NumOrd Linalg LinalgR Spec_Calc Model_DBSCAN Spec_KNN Spec_DBSCAN Spec_DBSCAN2 Spec_B64 B64Lemmas Model_KNN
  Proof_DBSCAN Proof_DBSCANEx Proof_DistB64 Proof_ErrB64.
Import ListNotations.
Local Open Scope nat_scope.

Section Mono.
  Context (n : nat) (near near' : nat -> nat -> Prop) (mp mp' : nat).
  Hypothesis NN : forall i j, i < n -> j < n -> near i j -> near' i j.
  Hypothesis MP : mp' <= mp.
  Lemma core_mono i : core n near mp i -> core n near' mp' i.
  Proof.
    intros (Hi & S & N & L & A). split; auto. exists (firstn mp' S). split.
    - clear L A. revert mp' MP. induction S as [|x S IH]; intros k Hk; destruct k; cbn; try constructor; inversion N; subst.
      + intros H. apply H1. rewrite <- (firstn_skipn k S). apply in_or_app. now left.
      + destruct mp; [lia|]. apply IH; auto. lia.
    - split; [rewrite firstn_length; lia|]. intros j Hj. assert (In j S) by (rewrite <- (firstn_skipn mp' S); apply in_or_app; now left).
      destruct (A j H). auto.
  Qed.
  Lemma chain_mono i j : chain n near mp i j -> chain n near' mp' i j.
  Proof.
    induction 1 as [a b (A & B & C)| |]; [|apply rt_refl|eapply rt_trans; eauto].
    apply rt_step. repeat split; try (now apply core_mono). apply NN; auto; [apply A|apply B].
  Qed.
  Lemma refines_mono lab lab' : density_labels n near mp lab -> density_labels n near' mp' lab' -> refines lab lab'.
  Proof.
    intros (L & C & S & _) (L' & C' & S' & _). split; [congruence|].
    assert (B : forall i, nth i lab None <> None -> i < n).
    { intros i H. destruct (lt_dec i n); auto. rewrite nth_overflow in H; [easy|lia]. }
    split.
    - intros i H. pose proof (B i H). apply C'; auto. apply core_mono. now apply C.
    - intros i j H E. assert (Hj : nth j lab None <> None) by congruence. pose proof (B i H). pose proof (B j Hj).
      assert (core n near mp i) by now apply C. assert (core n near mp j) by now apply C.
      apply S'; try now apply core_mono. apply chain_mono. now apply S.
  Qed.
End Mono.

Lemma density_unique n near mp lab lab' : density_labels n near mp lab -> density_labels n near mp lab' -> lab = lab'.
Proof.
  intros (L & C & S & O) (L' & C' & S' & O'). apply (nth_ext _ _ None None); [congruence|].
  rewrite L. intros i. induction i as [i IH] using (well_founded_induction lt_wf). intros Hi.
  destruct (nth i lab None) as [c|] eqn:E; destruct (nth i lab' None) as [c'|] eqn:E'; auto.
  - assert (K : core n near mp i) by (apply C; auto; congruence).
    assert (PRE : forall j, j < i -> nth j lab None = Some c <-> nth j lab' None = Some c').
    { intros j Hj. split; intros H.
      - assert (core n near mp j) by (apply C; [lia|congruence]). rewrite <- E'. apply S'; auto. apply S; auto. congruence.
      - assert (core n near mp j) by (apply C'; [lia|congruence]). rewrite <- E. apply S; auto. apply S'; auto. congruence. }
    destruct (Nat.eq_dec c c') as [->|NE]; auto. exfalso.
    destruct (lt_dec c c') as [Q|Q].
    + destruct (O' i c' c E' Q) as (j & Hj & Ej). assert (Ej2 : nth j lab None = Some c) by (rewrite IH; auto; lia).
      apply PRE in Ej2; auto. congruence.
    + destruct (O i c c' E) as (j & Hj & Ej); [lia|]. assert (Ej2 : nth j lab' None = Some c') by (rewrite <- IH; auto; lia).
      apply PRE in Ej2; auto. congruence.
  - exfalso. assert (K : core n near mp i) by (apply C; auto; congruence). apply C' in K; auto.
  - exfalso. assert (K : core n near mp i) by (apply C'; auto; congruence). apply C in K; auto.
Qed.

Lemma train_inv {F} {N : Num F} fuel (m m1 : DBSCAN F) data lab : dbscan_train fuel m data = Some m1 -> db_clusters m1 = Some lab ->
  exists w k, clustering (db_eps m) (db_min_points m) data fuel = Some (w, k) /\ lab = w_clusters w.
Proof.
  unfold dbscan_train. destruct clustering as [[w k]|]; [|discriminate]. intros [= <-]. cbn. intros [= <-]. eauto.
Qed.

(** ** Larger eps, smaller min_points *)
Theorem train_monotone (m m' m1 m1' : DBSCAN B64) (data : matrix B64) lab lab' :
  nnan (db_eps m') = false -> nltb (db_eps m') (db_eps m) = false -> db_min_points m' <= db_min_points m ->
  dbscan_train (nrows data) m data = Some m1 -> dbscan_train (nrows data) m' data = Some m1' ->
  db_clusters m1 = Some lab -> db_clusters m1' = Some lab' -> refines lab lab'.
Proof.
  intros Nn Le Mp T T' L L'. destruct (train_inv _ _ _ _ _ T L) as (w & k & E & ->). destruct (train_inv _ _ _ _ _ T' L') as (w' & k' & E' & ->).
  destruct (clusters_b64 (db_eps m) (db_min_points m) data) as (w0 & k0 & E0 & D & _).
  destruct (clusters_b64 (db_eps m') (db_min_points m') data) as (w0' & k0' & E0' & D' & _).
  rewrite E in E0. injection E0 as <- <-. rewrite E' in E0'. injection E0' as <- <-.
  eapply refines_mono; [|exact Mp|exact D|exact D']. intros i j _ _ H. now apply (no_lt_le _ (db_eps m)).
Qed.

(** ** Rounding *)
Local Open Scope R_scope.
Lemma fin_nan (x : B64) : is_finite x = true -> is_nan x = false.
Proof. now destruct x. Qed.
Lemma real_mat_rows (data : matrix B64) : nrows (real_mat data) = nrows data.
Proof. unfold nrows, real_mat. cbn. apply map_length. Qed.
Lemma real_mat_nth (data : matrix B64) i : nth i (mrows (real_mat data)) [] = real_vec (nth i (mrows data) []).
Proof. unfold real_mat. cbn. change (@nil R) with (real_vec []) at 1. apply map_nth. Qed.
Lemma real_mat_wf (data : matrix B64) : mwf data -> mwf (real_mat data).
Proof.
  intros W. apply Forall_forall. intros r Hr. unfold real_mat in *. cbn in *. apply in_map_iff in Hr as (x & <- & Hx). unfold real_vec. rewrite map_length.
  revert x Hx. now apply Forall_forall.
Qed.

Section Rounding.
  Context (data : matrix B64) (eps : B64).
  Hypotheses (W : mwf data) (MD : moderate_dim (mcols data)) (MR : forall r, In r (mrows data) -> moderate r) (FE : is_finite eps = true).
  Let D i j := true_dist (mcols data) (nth i (mrows data) []) (nth j (mrows data) []).
  Let nearc i j := nltb (edist (nth i (mrows data) []) (nth j (mrows data) [])) eps = true.
  Lemma near_true e i j : near_R (real_mat data) e i j <-> D i j < e.
  Proof. unfold near_R, D, true_dist. rewrite !real_mat_nth. reflexivity. Qed.
  Lemma nearc_iff i j : (i < nrows data)%nat -> (j < nrows data)%nat ->
    exists d, close_to d (D i j) /\ (nearc i j <-> d < B2R eps).
  Proof.
    intros Hi Hj. unfold nearc. rewrite edist_dist.
    assert (Ii : In (nth i (mrows data) []) (mrows data)) by now apply nth_In.
    assert (Ij : In (nth j (mrows data) []) (mrows data)) by now apply nth_In.
    pose proof (proj1 (Forall_forall _ _) W) as W'.
    destruct (dist_close (mcols data) (nth i (mrows data) []) (nth j (mrows data) [])) as (Fd & _ & C); auto.
    eexists. split; [exact C|]. cbn [nltb NumB64]. rewrite phi_ltb, !phi_finite; auto using fin_nan. reflexivity.
  Qed.
  Lemma D_nonneg i j : 0 <= D i j.
  Proof. apply euclid_nonneg. Qed.
  Lemma bounds : 0 < bpow radix2 (-31) < 1 /\ 0 < bpow radix2 (-526).
  Proof. split; [split|]; try apply bpow_gt_0. change 1 with (bpow radix2 0). apply bpow_lt. lia. Qed.
  Lemma near_lo lo i j : (i < nrows data)%nat -> (j < nrows data)%nat -> tol_up lo <= B2R eps -> D i j < lo -> nearc i j.
  Proof.
    intros Hi Hj T H. destruct (nearc_iff i j Hi Hj) as (d & C & ->). unfold close_to in C. apply Rabs_le_inv in C. unfold tol_up in T.
    pose proof bounds. pose proof (D_nonneg i j). nra.
  Qed.
  Lemma near_hi hi i j : (i < nrows data)%nat -> (j < nrows data)%nat -> B2R eps <= tol_down hi -> nearc i j -> D i j < hi.
  Proof.
    intros Hi Hj T H. destruct (nearc_iff i j Hi Hj) as (d & C & Q). apply Q in H. unfold close_to in C. apply Rabs_le_inv in C. unfold tol_down in T.
    pose proof bounds. pose proof (D_nonneg i j). nra.
  Qed.
End Rounding.

Section Sandwich.
  Context (data : matrix B64) (m m1 : DBSCAN B64) (me me1 : DBSCAN R) (lab labe : list (option nat)).
  Hypotheses (W : mwf data) (MD : moderate_dim (mcols data)) (MR : forall r, In r (mrows data) -> moderate r) (FE : is_finite (db_eps m) = true).
  Hypotheses (MP : db_min_points me = db_min_points m).
  Hypotheses (T : dbscan_train (nrows data) m data = Some m1) (L : db_clusters m1 = Some lab).
  Hypotheses (Te : dbscan_train (nrows data) me (real_mat data) = Some me1) (Le : db_clusters me1 = Some labe).
  Let nearc i j := nltb (edist (nth i (mrows data) []) (nth j (mrows data) [])) (db_eps m) = true.
  Let neare i j := true_dist (mcols data) (nth i (mrows data) []) (nth j (mrows data) []) < db_eps me.
  Lemma sw_c : density_labels (nrows data) nearc (db_min_points m) lab.
  Proof.
    destruct (train_inv _ _ _ _ _ T L) as (w & k & E & ->). destruct (clusters_b64 (db_eps m) (db_min_points m) data) as (w0 & k0 & E0 & D & _).
    rewrite E in E0. injection E0 as <- <-. exact D.
  Qed.
  Lemma sw_e : density_labels (nrows data) neare (db_min_points m) labe.
  Proof.
    destruct (train_inv _ _ _ _ _ Te Le) as (w & k & E & ->). destruct (clusters_real (db_eps me) (db_min_points me) (real_mat data)) as (w0 & k0 & E0 & D & _).
    { now apply real_mat_wf. }
    rewrite real_mat_rows in E0, D. rewrite E in E0. injection E0 as <- <-. rewrite MP in D. eapply density_ext; [|exact D]. intros. apply near_true.
  Qed.
  Lemma sandwich_below : tol_up (db_eps me) <= B2R (db_eps m) -> refines labe lab.
  Proof.
    intros H. eapply refines_mono; [|apply Nat.le_refl|exact sw_e|exact sw_c]. intros i j Hi Hj Q. eapply near_lo; eauto.
  Qed.
  Lemma sandwich_above : B2R (db_eps m) <= tol_down (db_eps me) -> refines lab labe.
  Proof.
    intros H. eapply refines_mono; [|apply Nat.le_refl|exact sw_c|exact sw_e]. intros i j Hi Hj Q. eapply near_hi; eauto.
  Qed.
  (** No true distance close to eps: the exact labels. *)
  Lemma sandwich_gap lo hi : lo <= db_eps me <= hi -> tol_up lo <= B2R (db_eps m) <= tol_down hi ->
    (forall i j, (i < nrows data)%nat -> (j < nrows data)%nat -> let d := true_dist (mcols data) (nth i (mrows data) []) (nth j (mrows data) []) in d < lo \/ hi <= d) ->
    lab = labe.
  Proof.
    intros Ie B G. eapply density_unique; [exact sw_c|]. eapply density_ext; [|exact sw_e]. intros i j Hi Hj. unfold neare, nearc.
    destruct (G i j Hi Hj) as [Q|Q]; split; intros H.
    - exact (near_lo data (db_eps m) W MD MR FE lo i j Hi Hj (proj1 B) Q).
    - lra.
    - lra.
    - exfalso. assert (true_dist (mcols data) (nth i (mrows data) []) (nth j (mrows data) []) < hi); [|lra]. exact (near_hi data (db_eps m) W MD MR FE hi i j Hi Hj (proj2 B) H).
  Qed.
End Sandwich.

(** ** Similarities *)
Theorem train_similar (m m' m1 m1' : DBSCAN R) (data : matrix R) n' s T lab lab' : mwf data -> mwf (map_rows n' T data) -> 0 < s ->
  similarity (mcols data) n' s T (mrows data) -> db_eps m' = s * db_eps m -> db_min_points m' = db_min_points m ->
  dbscan_train (nrows data) m data = Some m1 -> dbscan_train (nrows data) m' (map_rows n' T data) = Some m1' ->
  db_clusters m1 = Some lab -> db_clusters m1' = Some lab' -> lab' = lab.
Proof.
  intros W W' Hs Si He Hm T1 T1' L L'. destruct (train_inv _ _ _ _ _ T1 L) as (w & k & E & ->). destruct (train_inv _ _ _ _ _ T1' L') as (w' & k' & E' & ->).
  destruct (clusters_real (db_eps m) (db_min_points m) data W) as (w0 & k0 & E0 & D & _).
  destruct (clusters_real (db_eps m') (db_min_points m') _ W') as (w0' & k0' & E0' & D' & _).
  assert (R0 : nrows (map_rows n' T data) = nrows data) by (unfold nrows, map_rows; cbn; apply map_length).
  rewrite R0 in *. rewrite E in E0. injection E0 as <- <-. rewrite E' in E0'. injection E0' as <- <-.
  eapply density_unique; [exact D'|]. rewrite Hm. eapply density_ext; [|exact D]. intros i j Hi Hj. unfold near_R, map_rows. cbn [mrows mcols].
  rewrite !(nth_indep (map T (mrows data)) [] (T [])) by (rewrite map_length; auto). rewrite !map_nth. rewrite Si by (now apply nth_In). rewrite He.
  split; intros H; [now apply Rmult_lt_compat_l|]. now apply Rmult_lt_reg_l in H.
Qed.

(** ** Depth of the recursion *)
Lemma line_nth n i : (i < n)%nat -> nth i (mrows (line n)) [] = [INR i].
Proof.
  intros H. unfold line. cbn [mrows]. rewrite (nth_indep _ [] [INR 0]) by (rewrite map_length, seq_length; auto).
  change [INR 0] with ((fun i => [INR i]) 0%nat). rewrite map_nth, seq_nth; auto.
Qed.
Lemma line_rows n : nrows (line n) = n.
Proof. unfold nrows, line. cbn. now rewrite map_length, seq_length. Qed.
Lemma line_wf n : mwf (line n).
Proof. apply Forall_forall. intros r Hr. unfold line in *. cbn in *. apply in_map_iff in Hr as (x & <- & _). reflexivity. Qed.
Local Open Scope nat_scope.
Lemma line_near n i j : i < n -> j < n -> nearb (3 / 2)%R (line n) i j = true <-> (i <= S j /\ j <= S i).
Proof.
  intros Hi Hj. unfold nearb. rewrite !line_nth by auto. unfold edist, dot, vsub. cbn [map2 vsum fold_left map]. rewrite nltb_R. cbn.
  rewrite Rplus_0_l.
  assert (A : (sqrt ((INR j - INR i) * (INR j - INR i)) = Rabs (INR j - INR i))%R) by (rewrite <- sqrt_Rsqr_abs; reflexivity).
  rewrite A. destruct (Nat.le_gt_cases i (S j)) as [C|C]; [destruct (Nat.le_gt_cases j (S i)) as [C'|C']|].
  - split; auto. intros _. apply le_INR in C, C'. rewrite S_INR in C, C'. apply Rabs_def1; lra.
  - split; [|lia]. intros H. apply Rabs_def2 in H. apply lt_INR in C'. assert (K : S (S i) <= j) by (apply INR_lt in C'; lia). apply le_INR in K. rewrite !S_INR in K. lra.
  - split; [|lia]. intros H. apply Rabs_def2 in H. apply lt_INR in C. assert (K : S (S j) <= i) by (apply INR_lt in C; lia). apply le_INR in K. rewrite !S_INR in K. lra.
Qed.
Lemma line_nb n i : S i < n -> exists l1 l2, nb (3 / 2)%R (line n) i = l1 ++ S i :: l2 /\ (forall j, In j l1 -> j <= i) /\ In i l1.
Proof.
  intros Hi. rewrite nb_filter, line_rows.
  assert (E : seq 0 n = seq 0 (S i) ++ S i :: seq (S (S i)) (n - S (S i))).
  { change (S i :: seq (S (S i)) (n - S (S i))) with (seq (0 + S i) (S (n - S (S i)))). rewrite <- seq_app. f_equal. lia. }
  rewrite E, filter_app. exists (filter (nearb (3 / 2)%R (line n) i) (seq 0 (S i))). eexists. split; [|split].
  - f_equal. cbn [filter]. rewrite (proj2 (line_near n i (S i) ltac:(lia) ltac:(lia))) by lia. reflexivity.
  - intros j Hj. apply filter_In in Hj as [Hj _]. apply in_seq in Hj. lia.
  - apply filter_In. split; [apply in_seq; lia|]. apply line_near; lia.
Qed.
Lemma line_core n i : S i < n -> coreb (3 / 2)%R 2 (line n) i = true.
Proof.
  intros Hi. unfold coreb. apply Nat.leb_le. destruct (line_nb n i Hi) as (l1 & l2 & -> & _ & I). rewrite app_length. cbn. destruct l1; [easy|cbn; lia].
Qed.
Lemma line_core_last n i : i < n -> 2 <= n -> coreb (3 / 2)%R 2 (line n) i = true.
Proof.
  intros Hi Hn. destruct (Nat.eq_dec (S i) n) as [E|E]; [|apply line_core; lia].
  apply coreb_core; [rewrite line_rows; lia|]. split; [rewrite line_rows; lia|]. exists [i; i - 1]. rewrite line_rows. split.
  - constructor; [cbn; lia|]. constructor; [easy|constructor].
  - split; auto. intros j [<-|[<-|[]]]; (split; [lia|]); apply line_near; lia.
Qed.

Section Skip.
  Context {F : Type} {N : Num F} (mp : nat) (eps : F) (inputs : matrix F) (rec : work -> nat -> list nat -> option work).
  Lemma visit_all_skip l1 l2 w : length (w_visited w) = nrows inputs -> (forall j, In j l1 -> j < nrows inputs /\ vis w j = true) ->
    visit_all eps mp inputs rec (l1 ++ l2) w = visit_all eps mp inputs rec l2 w.
  Proof.
    intros L. induction l1 as [|j l1 IH]; intros H; auto. cbn [app visit_all]. destruct (H j (or_introl eq_refl)) as [Hj V]. unfold vis in V.
    rewrite (nth_error_nth' _ false) by lia. rewrite V. apply IH. intros; apply H; now right.
  Qed.
End Skip.

Lemma line_expand n : forall fuel i c w, i + fuel < n -> wf (line n) w -> (forall j, j < n -> vis w j = true <-> j <= i) ->
  expand_cluster (3 / 2)%R 2 (line n) fuel c w i (nb (3 / 2)%R (line n) i) = None.
Proof.
  induction fuel as [|fuel IH]; intros i c w Hi W V; [reflexivity|]. cbn [expand_cluster].
  destruct (label_spec (line n) w i c W) as (w1 & -> & W1 & V1 & _ & _); [rewrite line_rows; lia|].
  destruct (line_nb n i) as (l1 & l2 & -> & L1 & _); [lia|]. rewrite visit_all_skip.
  - cbn [visit_all]. assert (Vf : vis w1 (S i) = false). { rewrite V1. destruct (vis w (S i)) eqn:E; auto. apply V in E; lia. }
    unfold vis in Vf. rewrite (nth_error_nth' _ false) by (destruct W1 as (-> & _); rewrite line_rows; lia). rewrite Vf.
    destruct (visit_spec (line n) w1 (S i) W1) as (w2 & -> & W2 & V2 & _ & _); [rewrite line_rows; lia|exact Vf|].
    rewrite (nth_error_nth' _ []) by (fold (nrows (line n)); rewrite line_rows; lia).
    fold (nb (3 / 2)%R (line n) (S i)). fold (coreb (3 / 2)%R 2 (line n) (S i)). cbn zeta. rewrite line_core_last by lia.
    rewrite IH; auto; [lia|]. intros j Hj. rewrite V2, V1, V by auto. lia.
  - now destruct W1.
  - intros j Hj. apply L1 in Hj. rewrite line_rows. split; [lia|]. rewrite V1. apply V; lia.
Qed.
Theorem line_depth n fuel : 2 <= n -> fuel < n -> clustering (3 / 2)%R 2 (line n) fuel = None.
Proof.
  intros Hn Hf. assert (W0 : wf (line n) (init_params (line n)) /\ forall i, vis (init_params (line n)) i = false).
  { split.
    - split; [cbn; apply repeat_length|]. split; [cbn; apply repeat_length|]. split; [constructor|].
      intros i. unfold vis, init_params. cbn [w_visited w_queries]. destruct (nth_in_or_default i (repeat false (nrows (line n))) false) as [H|H]; [apply repeat_spec in H|]; rewrite H; split; easy.
    - intros i. unfold vis, init_params. cbn [w_visited]. destruct (nth_in_or_default i (repeat false (nrows (line n))) false) as [H|H]; auto. now apply repeat_spec in H. }
  destruct W0 as [W0 V0]. unfold clustering. pose proof (line_nth n 0 ltac:(lia)) as R0. pose proof (line_rows n) as Rn. unfold nrows in Rn.
  destruct (mrows (line n)) as [|r rows] eqn:E; [cbn in Rn; lia|]. cbn [nth] in R0. cbn [train_loop].
  rewrite (nth_error_nth' _ false) by (destruct W0 as (-> & _); rewrite line_rows; lia). fold (vis (init_params (line n)) 0). rewrite V0.
  destruct (visit_spec (line n) _ 0 W0) as (w1 & -> & W1 & V1 & _); [rewrite line_rows; lia|apply V0|]. cbn zeta.
  replace r with (nth 0 (mrows (line n)) []) by now rewrite E. fold (nb (3 / 2)%R (line n) 0). fold (coreb (3 / 2)%R 2 (line n) 0). rewrite line_core by lia.
  rewrite line_expand; auto. intros j Hj. rewrite V1, V0. intuition (lia || discriminate).
Qed.
Theorem depth_enough (eps : B64) mp (data : matrix B64) fuel : nrows data <= fuel -> exists w k, clustering eps mp data fuel = Some (w, k).
Proof. intros H. destruct (visits_each_once eps mp data fuel H) as (w & k & E & _). eauto. Qed.
Theorem depth_reached n fuel : 2 <= n -> fuel < n -> mwf (line n) /\ nrows (line n) = n /\ clustering (3 / 2)%R 2 (line n) fuel = None.
Proof. intros. split; [apply line_wf|]. split; [apply line_rows|now apply line_depth]. Qed.
