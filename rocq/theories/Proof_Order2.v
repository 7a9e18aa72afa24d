(** * Training does not depend on the order of the rows, continued *)
From Coq Require Import List Arith Lia Bool Permutation Reals Lra FunctionalExtensionality FinFun Relations.
From Verif Require Import Base BaseLemmas Num NumX NumF NumFn Linalg LinalgR Spec_Calc CalcR MatR Model_Cost Model_Toolkit Model_Optim Model_Regression Model_KMeans
  Model_NaiveBayes Model_Transforms Model_Score Model_DBSCAN Spec_DBSCAN Spec_Order Proof_KMeans Proof_Order Proof_DBSCANEx.
Import ListNotations.

(** ** Logistic regression *)
Section Log.
  Context {F : Type} {N : Num F} {NF : NumFn F} {A : NumAC F}.
  Lemma ce_vec_maps {B} (g h : B -> F) l : ce_cost_vec (map g l) (map h l) =
    Ok (ndiv (nopp (vsum (map (fun p => nadd (nmul (h p) (nln (g p))) (nmul (nadd (nopp (h p)) nonev) (nln (nadd (nopp (g p)) nonev)))) l))) (nofnat (length l))).
  Proof. unfold ce_cost_vec, vadd, velemul. now rewrite !map_length, Nat.eqb_refl, !map_map, !map2_maps. Qed.
  Lemma log_grad_order w (l l' : list (list F * F)) params : Permutation l l' ->
    log_compute_grad (with_ones (rows_of w l)) (targets_of l) params = log_compute_grad (with_ones (rows_of w l')) (targets_of l') params.
  Proof.
    intros P. pose proof (Permutation_length P) as LP. unfold log_compute_grad, rows_of, targets_of. rewrite !with_ones_map, !rmat_vec_map, !nrows_map.
    destruct (S w =? length params); cbn [rassert rbind]; auto. rewrite !map_map, !ce_vec_maps. cbn [rbind]. rewrite !rvsub_maps. cbn [rbind].
    rewrite (tmv_perm (fun p => nonev :: fst p) (fun p => nsub (sigmoid (dot (nonev :: fst p) params)) (snd p)) l l' (S w) P), LP.
    erewrite (vsum_perm (map _ l)); [reflexivity|]. now apply Permutation_map.
  Qed.
  Theorem log_train_order optimize self w (l l' : list (list F * F)) : Permutation l l' ->
    log_train optimize self (rows_of w l) (targets_of l) = log_train optimize self (rows_of w l') (targets_of l').
  Proof.
    intros P. unfold log_train.
    replace (log_compute_grad (with_ones (rows_of w l)) (targets_of l)) with (log_compute_grad (with_ones (rows_of w l')) (targets_of l')); auto.
    apply functional_extensionality. intros v. symmetry. now apply log_grad_order.
  Qed.
End Log.

(** ** Naive Bayes *)
Section NBOrder.
  Context {F : Type} {N : Num F} {NF : NumFn F} {A : NumAC F}.
  Lemma find_class_cases r : forall i, (exists c, find_class (F:=F) r i = Ok c) \/ find_class r i = Err InvalidState.
  Proof. induction r as [|x r IH]; intros i; cbn; auto. destruct (neqb x nonev); eauto. Qed.
  Definition cls (r : list F) : nat := match find_class r 0 with Ok c => c | _ => 0 end.
  Lemma find_classes_cases rows : (Forall (fun r => exists c, find_class r 0 = Ok c) rows /\ find_classes (F:=F) rows = (map cls rows, Ok tt)) \/
    (~ Forall (fun r => exists c, find_class r 0 = Ok c) rows /\ snd (find_classes rows) = Err InvalidState).
  Proof.
    induction rows as [|r rows [[F1 E1]|[F1 E1]]]; cbn [find_classes].
    - left. auto.
    - destruct (find_class_cases r 0) as [[c Hc]|Hc]; rewrite Hc.
      + left. rewrite E1. split; [constructor; eauto|]. cbn [map]. unfold cls at 2. now rewrite Hc.
      + right. split; auto. intros H. inversion H as [|? ? [c Hc'] _]; subst. congruence.
    - destruct (find_class_cases r 0) as [[c Hc]|Hc]; rewrite Hc.
      + right. split; [intros H; inversion H; subst; auto|]. destruct (find_classes rows) as [cs o]. exact E1.
      + right. split; auto. intros H. inversion H as [|? ? [c Hc'] _]; subst. congruence.
  Qed.
  Context {P : Type} (D : Distribution (F:=F) P).
  Hypothesis upd_order : forall p r r' w c, Permutation r r' -> d_update P D p (Mat r w) c = d_update P D p (Mat r' w) c.

  Lemma class_rows_len (a : list F * list F -> nat) l c : length (class_rows (map a l) c) = length (filter (fun p => a p =? c) l).
  Proof.
    pose proof (class_pairs fst a l 0 c) as E. apply (f_equal (@length _)) in E. now rewrite !map_length in E.
  Qed.
  Lemma update_classes_order w (a : list F * list F -> nat) l l' todo : Permutation l l' -> forall p,
    update_classes D (rows_of w l) (map a l) todo p = update_classes D (rows_of w l') (map a l') todo p.
  Proof.
    intros Pm. induction todo as [|c todo IH]; intros p; cbn [update_classes]; auto.
    pose proof (class_rows_len a l c) as L1. pose proof (class_rows_len a l' c) as L2.
    pose proof (perm_filter (fun p => a p =? c) l l' Pm) as Pf. rewrite (Permutation_length Pf), <- L2 in L1. clear L2.
    assert (S1 : select_rows (rows_of w l) (class_rows (map a l) c) = Ok (Mat (map fst (filter (fun p => a p =? c) l)) w)).
    { rewrite select_rows_spec. 2:{ pose proof (class_rows_lt (map a l) c) as H. unfold nrows, rows_of. cbn [mrows]. rewrite map_length in *. exact H. }
      unfold rows_of. now rewrite (class_pairs fst a l w c). }
    assert (S2 : select_rows (rows_of w l') (class_rows (map a l') c) = Ok (Mat (map fst (filter (fun p => a p =? c) l')) w)).
    { rewrite select_rows_spec. 2:{ pose proof (class_rows_lt (map a l') c) as H. unfold nrows, rows_of. cbn [mrows]. rewrite map_length in *. exact H. }
      unfold rows_of. now rewrite (class_pairs fst a l' w c). }
    destruct (class_rows (map a l) c) as [|i ids], (class_rows (map a l') c) as [|i' ids']; try discriminate L1; auto.
    rewrite S1, S2. rewrite (upd_order p _ _ w c (Permutation_map fst Pf)). destruct (d_update P D p _ c) as [p' [| |]]; auto.
  Qed.
  Theorem nb_train_order m w k (l l' : list (list F * list F)) : Permutation l l' ->
    snd (nb_train D m (rows_of w l) (target_rows k l)) = snd (nb_train D m (rows_of w l') (target_rows k l')) /\
    (snd (nb_train D m (rows_of w l) (target_rows k l)) = Ok tt ->
     nb_train D m (rows_of w l) (target_rows k l) = nb_train D m (rows_of w l') (target_rows k l')).
  Proof.
    intros Pm. unfold nb_train. cbn [mcols rows_of target_rows mrows].
    assert (PF : Forall (fun r : list F => exists c, find_class r 0 = Ok c) (map snd l) <-> Forall (fun r : list F => exists c, find_class r 0 = Ok c) (map snd l')).
    { rewrite !Forall_forall. split; intros H x Hx; apply H.
      - apply (Permutation_in _ (Permutation_map snd (Permutation_sym Pm)) Hx).
      - apply (Permutation_in _ (Permutation_map snd Pm) Hx). }
    destruct (find_classes_cases (map snd l)) as [[F1 E1]|[F1 E1]], (find_classes_cases (map snd l')) as [[F2 E2]|[F2 E2]]; try tauto.
    - rewrite E1, E2, !map_map. fold (rows_of w l). fold (rows_of w l').
      rewrite (update_classes_order w (fun p => cls (snd p)) l l' (seq 0 k) Pm).
      assert (CC : class_counts k (map (fun p : list F * list F => cls (snd p)) l) = class_counts k (map (fun p => cls (snd p)) l')).
      { unfold class_counts. apply map_ext. intros c. rewrite !class_rows_len. apply Permutation_length, perm_filter, Pm. }
      assert (LN : nrows (rows_of w l) = nrows (rows_of w l')).
      { unfold nrows, rows_of. cbn [mrows]. rewrite !map_length. now apply Permutation_length. }
      rewrite CC, LN. auto.
    - destruct (find_classes (map snd l)) as [cs o], (find_classes (map snd l')) as [cs' o']. cbn [snd] in E1, E2. subst. cbn. split; auto. discriminate.
  Qed.
End NBOrder.

Section NBThree.
  Context {F : Type} {N : Num F} {NF : NumFn F} {A : NumAC F}.
  Lemma col_sums_perm (l l' : list (list F)) w : Permutation l l' -> col_sums (Mat l w) = col_sums (Mat l' w).
  Proof.
    intros P. unfold col_sums. cbn [mcols]. apply map_ext. intros j. apply vsum_perm. unfold col. cbn [mrows]. now apply Permutation_map.
  Qed.
  Lemma gauss_upd_order (p : Gauss F) r r' w c : Permutation r r' -> gauss_update p (Mat r w) c = gauss_update p (Mat r' w) c.
  Proof.
    intros P. unfold gauss_update. rewrite (col_mean_perm r r' w P), (col_var_perm r r' w P). unfold nrows. cbn [mrows]. now rewrite (Permutation_length P).
  Qed.
  Lemma bern_upd_order (p : Smooth F) r r' w c : Permutation r r' -> bernoulli_update p (Mat r w) c = bernoulli_update p (Mat r' w) c.
  Proof.
    intros P. unfold bernoulli_update. rewrite (col_sums_perm r r' w P). unfold nrows. cbn [mrows]. now rewrite (Permutation_length P).
  Qed.
  Lemma multi_upd_order (p : Smooth F) r r' w c : Permutation r r' -> multinomial_update p (Mat r w) c = multinomial_update p (Mat r' w) c.
  Proof. intros P. unfold multinomial_update. now rewrite (col_sums_perm r r' w P). Qed.
End NBThree.

(** ** Min-max scaling *)
Definition fin_pair (p : X * X) : Prop := exists a b, p = (Fin a, Fin b).
Lemma minmax_row_fin r : forall mm mm', Forall fin_pair mm -> minmax_row r mm = Ok mm' -> Forall fin_pair mm'.
Proof.
  induction r as [|x r IH]; intros mm mm' H E; cbn in E; [injection E as <-; auto|]. destruct mm as [|[mn mx] mm]; cbn in E; [injection E as <-; auto|].
  inversion H as [|? ? (a & b & Eab) H2]; subst. injection Eab as -> ->. destruct x as [x| | |]; cbn in E; try discriminate.
  destruct (minmax_row r mm) as [q| |] eqn:Q; cbn in E; try discriminate. injection E as <-. constructor; [|eapply IH; eauto].
  destruct (Rlt_dec x a), (Rlt_dec b x); eexists _, _; reflexivity.
Qed.
Lemma minmax_row_len r : forall mm mm', minmax_row (F:=X) r mm = Ok mm' -> length mm' = length mm.
Proof.
  induction r as [|x r IH]; intros [|[mn mx] mm] mm' E; cbn in E; try (injection E as <-; auto; fail).
  destruct (xfinite x); cbn in E; [|discriminate]. destruct (minmax_row r mm) as [q| |] eqn:Q; cbn in E; try discriminate. injection E as <-. cbn. f_equal. eauto.
Qed.
Lemma minmax_row_err r : forall mm, Forall fin_pair mm -> (exists mm', minmax_row r mm = Ok mm') \/ minmax_row r mm = Err InvalidData.
Proof.
  induction r as [|x r IH]; intros [|[mn mx] mm] H; cbn; eauto. inversion H; subst. destruct (xfinite x); cbn; auto.
  destruct (IH mm) as [[q ->]| ->]; cbn; eauto.
Qed.
(** Whether a row fails does not depend on the running values. *)
Lemma minmax_row_err_indep r : forall mm mm2, length mm = length mm2 -> minmax_row (F:=X) r mm = Err InvalidData -> minmax_row r mm2 = Err InvalidData.
Proof.
  induction r as [|x r IH]; intros [|[mn mx] mm] [|[mn2 mx2] mm2] L E; cbn in *; try discriminate. destruct (xfinite x); cbn in *; auto.
  destruct (minmax_row r mm) as [q| |] eqn:Q; cbn in E; try discriminate. injection E as ->. rewrite (IH mm mm2); auto.
Qed.
Lemma minmax_swap_ok r1 : forall r2 mm m1 m2 m1' m2', Forall fin_pair mm -> minmax_row r1 mm = Ok m1 -> minmax_row r2 m1 = Ok m1' ->
  minmax_row r2 mm = Ok m2 -> minmax_row r1 m2 = Ok m2' -> m1' = m2'.
Proof.
  induction r1 as [|x r1 IH]; intros r2 mm m1 m2 m1' m2' H E1 E2 E3 E4.
  - cbn in E1, E4. congruence.
  - destruct r2 as [|y r2]; [cbn in E2, E3; congruence|]. destruct mm as [|[mn mx] mm].
    + cbn in E1, E3. injection E1 as <-. injection E3 as <-. cbn in E2, E4. congruence.
    + inversion H as [|? ? (a & b & Eab) H2]; subst. injection Eab as -> ->. cbn in E1, E3.
      destruct x as [x| | |]; cbn in E1; try discriminate. destruct y as [y| | |]; cbn in E3; try discriminate.
      destruct (minmax_row r1 mm) as [q1| |] eqn:Q1; cbn in E1; try discriminate. destruct (minmax_row r2 mm) as [q2| |] eqn:Q2; cbn in E3; try discriminate.
      injection E1 as <-. injection E3 as <-. cbn in E2, E4.
      destruct (minmax_row r2 q1) as [q3| |] eqn:Q3; cbn in E2; try discriminate. destruct (minmax_row r1 q2) as [q4| |] eqn:Q4; cbn in E4; try discriminate.
      injection E2 as <-. injection E4 as <-. f_equal; [|eapply IH; eauto]. clear.
      f_equal; repeat (destruct Rlt_dec; cbn [xltb] in *); try reflexivity; try (f_equal; lra); try (exfalso; lra).
Qed.
Lemma minmax_rows_order l l' : Permutation l l' -> forall mm, Forall fin_pair mm -> minmax_rows (F:=X) l mm = minmax_rows l' mm.
Proof.
  induction 1 as [|x l l' P IH|x y l|l l' l'' P1 IH1 P2 IH2]; intros mm H; cbn [minmax_rows]; auto.
  - destruct (minmax_row x mm) as [q| |] eqn:Q; cbn; auto. apply IH. eapply minmax_row_fin; eauto.
  - destruct (minmax_row_err x mm H) as [[mx Ex]|Ex], (minmax_row_err y mm H) as [[my Ey]|Ey]; rewrite Ex, Ey; cbn [rbind].
    + pose proof (minmax_row_fin _ _ _ H Ex) as Hx. pose proof (minmax_row_fin _ _ _ H Ey) as Hy.
      destruct (minmax_row_err y mx Hx) as [[a Ea]|Ea]; [|rewrite (minmax_row_err_indep y mx mm) in Ey; [discriminate|eapply minmax_row_len; eauto|auto]].
      destruct (minmax_row_err x my Hy) as [[b Eb]|Eb]; [|rewrite (minmax_row_err_indep x my mm) in Ex; [discriminate|eapply minmax_row_len; eauto|auto]].
      rewrite Ea, Eb. cbn [rbind]. f_equal. eapply minmax_swap_ok; [exact H|exact Ey|exact Eb|exact Ex|exact Ea].
    + now rewrite (minmax_row_err_indep y mm mx) by (auto; symmetry; eapply minmax_row_len; eauto).
    + now rewrite (minmax_row_err_indep x mm my) by (auto; symmetry; eapply minmax_row_len; eauto).
    + reflexivity.
  - rewrite IH1; auto.
Qed.
Theorem minmax_order smin smax w l l' : Permutation l l' -> minmax_fit (F:=X) smin smax (Mat l w) = minmax_fit smin smax (Mat l' w).
Proof.
  intros P. unfold minmax_fit. cbn [mcols mrows]. rewrite (minmax_rows_order l l' P); auto.
  apply Forall_forall. intros p Hp. apply repeat_spec in Hp. subst. eexists _, _. reflexivity.
Qed.

(** ** Scores *)
Section Scores.
  Context {F : Type} {N : Num F} {A : NumAC F} {T : Type} (eqb : T -> T -> bool).
  Lemma combine_split_map {B C} (l : list (B * C)) : combine (map fst l) (map snd l) = l.
  Proof. induction l as [|[b c] l IH]; cbn; congruence. Qed.
  Theorem accuracy_order (l l' : list (T * T)) : Permutation l l' ->
    accuracy (F:=F) eqb (map fst l) (map snd l) = accuracy eqb (map fst l') (map snd l').
  Proof.
    intros P. unfold accuracy. rewrite !map_length, !Nat.eqb_refl, !combine_split_map. cbn [rassert].
    now rewrite (Permutation_length P), (Permutation_length (perm_filter (fun xy => eqb (fst xy) (snd xy)) l l' P)).
  Qed.
  Theorem nmse_order w (l l' : list (list F * list F)) : Permutation l l' ->
    neg_mean_squared_error (Mat (map fst l) w) (Mat (map snd l) w) = neg_mean_squared_error (Mat (map fst l') w) (Mat (map snd l') w).
  Proof.
    intros P. unfold neg_mean_squared_error, mse_cost, same_shape, msum, mzip, nrows. cbn [mrows mcols].
    rewrite !map_length, !Nat.eqb_refl. cbn [andb rassert rbind]. rewrite !map2_maps, !map_map, !map_length, (Permutation_length P).
    erewrite (vsum_perm (map _ l)); [reflexivity|]. now apply Permutation_map.
  Qed.
End Scores.

(** ** DBSCAN *)
Section Density.
  Context (n : nat) (near near' : nat -> nat -> Prop) (mp : nat) (f g : nat -> nat).
  Hypothesis Hf : forall i, i < n -> f i < n.
  Hypothesis Hg : forall i, i < n -> g i < n.
  Hypothesis fg : forall i, i < n -> f (g i) = i.
  Hypothesis gf : forall i, i < n -> g (f i) = i.
  Hypothesis Hn : forall i j, i < n -> j < n -> (near' i j <-> near (f i) (f j)).
  Lemma NoDup_map_on {B} (h : nat -> B) l : (forall i j, In i l -> In j l -> h i = h j -> i = j) -> NoDup l -> NoDup (map h l).
  Proof.
    induction l as [|x l IH]; intros I D; cbn; [constructor|]. inversion D; subst. constructor.
    - intros H. apply in_map_iff in H. destruct H as (y & E & Hy). assert (y = x) by (apply I; cbn; auto). subst. contradiction.
    - apply IH; auto. intros i j Hi Hj. apply I; now right.
  Qed.
  Lemma core_order i : i < n -> (core n near' mp i <-> core n near mp (f i)).
  Proof.
    intros Hi. split; intros (_ & S & ND & L & H).
    - split; auto. exists (map f S). split; [|split].
      + apply NoDup_map_on; auto. intros a b Ha Hb E. apply H in Ha, Hb. rewrite <- (gf a), <- (gf b) by tauto. now rewrite E.
      + now rewrite map_length.
      + intros j Hj. apply in_map_iff in Hj. destruct Hj as (a & <- & Ha). destruct (H a Ha) as [La Na]. split; auto. now apply Hn.
    - split; auto. exists (map g S). split; [|split].
      + apply NoDup_map_on; auto. intros a b Ha Hb E. apply H in Ha, Hb. rewrite <- (fg a), <- (fg b) by tauto. now rewrite E.
      + now rewrite map_length.
      + intros j Hj. apply in_map_iff in Hj. destruct Hj as (a & <- & Ha). destruct (H a Ha) as [La Na]. split; auto. apply Hn; auto. now rewrite fg.
  Qed.
  Lemma chain_order1 i j : chain n near' mp i j -> i < n -> chain n near mp (f i) (f j).
  Proof.
    unfold chain. intros C. apply clos_rt_rt1n in C. induction C as [|x y z (Cx & Cy & Nxy) C IH]; intros Hi; [apply rt_refl|].
    assert (Hy : y < n) by apply Cy. eapply rt_trans; [|apply IH; auto]. apply rt_step. split; [|split].
    - now apply core_order. - now apply core_order. - now apply Hn.
  Qed.
End Density.
Lemma chain_order n near near' mp f g : (forall i, i < n -> f i < n) -> (forall i, i < n -> g i < n) ->
  (forall i, i < n -> f (g i) = i) -> (forall i, i < n -> g (f i) = i) ->
  (forall i j, i < n -> j < n -> (near' i j <-> near (f i) (f j))) -> forall i j, i < n -> j < n ->
  (chain n near' mp i j <-> chain n near mp (f i) (f j)).
Proof.
  intros Hf Hg fg gf Hn i j Hi Hj. split; intros C.
  - eapply (chain_order1 n near near' mp f g); eauto.
  - rewrite <- (gf i), <- (gf j) by auto. eapply (chain_order1 n near' near mp g f); eauto.
    intros a b Ha Hb. rewrite (Hn (g a) (g b)) by auto. now rewrite !fg.
Qed.

(** The same clusters for reordered rows, up to their numbers. *)
Theorem dbscan_order (eps : B64) mp (data data' : matrix B64) f : nrows data' = nrows data ->
  bFun (nrows data) f -> bInjective (nrows data) f -> (forall i, i < nrows data -> nth i (mrows data') [] = nth (f i) (mrows data) []) ->
  exists w k w' k', clustering eps mp data (nrows data) = Some (w, k) /\ clustering eps mp data' (nrows data') = Some (w', k') /\
    (forall i, i < nrows data -> (nth i (w_clusters w') None = None <-> nth (f i) (w_clusters w) None = None)) /\
    (forall i j, i < nrows data -> j < nrows data ->
      (nth i (w_clusters w') None = nth j (w_clusters w') None <-> nth (f i) (w_clusters w) None = nth (f j) (w_clusters w) None)).
Proof.
  intros L B I H. set (n := nrows data) in *.
  destruct (clusters_b64 eps mp data) as (w & k & E & (D1 & D2 & D3 & _) & _). destruct (clusters_b64 eps mp data') as (w' & k' & E' & (D1' & D2' & D3' & _) & _).
  exists w, k, w', k'. split; [exact E|]. split; [exact E'|]. rewrite L in *. fold n in D1, D2, D3, D1', D2', D3'.
  set (near := fun i j => nltb (edist (nth i (mrows data) []) (nth j (mrows data) [])) eps = true) in *.
  set (near' := fun i j => nltb (edist (nth i (mrows data') []) (nth j (mrows data') [])) eps = true) in *.
  destruct (bSurjective_bBijective (n:=n) (f:=f) B (proj1 (bInjective_bSurjective B) I)) as (g & Bg & Hgf).
  assert (Hn : forall i j, i < n -> j < n -> (near' i j <-> near (f i) (f j))).
  { intros i j Hi Hj. unfold near, near'. now rewrite !H. }
  assert (Hgf1 : forall i, i < n -> g (f i) = i) by (intros; now apply Hgf).
  assert (Hfg1 : forall i, i < n -> f (g i) = i) by (intros; now apply Hgf).
  assert (Cor : forall i, i < n -> (core n near' mp i <-> core n near mp (f i))) by (intros; eapply (core_order n near near' mp f g); eauto).
  assert (Non : forall i, i < n -> (nth i (w_clusters w') None = None <-> nth (f i) (w_clusters w) None = None)).
  { intros i Hi. pose proof (D2' i Hi) as Q1. pose proof (D2 (f i) (B i Hi)) as Q2. pose proof (Cor i Hi) as Q3.
    destruct (nth i (w_clusters w') None), (nth (f i) (w_clusters w) None); split; intros; auto; try discriminate; exfalso.
    - assert (core n near' mp i) by (apply Q1; discriminate). apply Q3, Q2 in H1. contradiction.
    - assert (core n near mp (f i)) by (apply Q2; discriminate). apply Q3, Q1 in H1. contradiction. }
  split; [exact Non|]. intros i j Hi Hj.
  pose proof (Non i Hi) as Ni. pose proof (Non j Hj) as Nj. pose proof (D2' i Hi) as Ci. pose proof (D2' j Hj) as Cj.
  destruct (nth i (w_clusters w') None) as [ci|] eqn:Ei; [|].
  - destruct (nth j (w_clusters w') None) as [cj|] eqn:Ej.
    + assert (K1 : core n near' mp i) by (apply Ci; discriminate). assert (K2 : core n near' mp j) by (apply Cj; discriminate).
      rewrite <- Ei, <- Ej. rewrite (D3' i j K1 K2), (D3 (f i) (f j)) by (now apply Cor).
      eapply (chain_order n near near' mp f g); eauto.
    + destruct (nth (f i) (w_clusters w) None) eqn:Fi; [|destruct Ni as [_ Ni]; discriminate (Ni eq_refl)].
      rewrite (proj1 Nj eq_refl). split; discriminate.
  - rewrite (proj1 Ni eq_refl). destruct (nth j (w_clusters w') None) as [cj|] eqn:Ej.
    + split; [discriminate|]. intros Q. destruct Nj as [_ Nj]. discriminate (Nj (eq_sym Q)).
    + rewrite (proj1 Nj eq_refl). tauto.
Qed.
