(** * Naive Bayes *)
From Coq Require Import List Arith Lia Bool Reals Lra Permutation.
From Verif Require Import Base BaseLemmas Num NumX NumFn NumOrd ArgLemmas Linalg LinalgR Spec_Calc CalcR Model_KMeans Proof_KMeans Model_NaiveBayes Spec_NaiveBayes.
Import ListNotations.

(** ** Prediction *)
Section Predict.
  Context {F : Type} {N : Num F} {O : NumOrd F}.
  Lemma upd_onehot (k c : nat) : c < k -> upd (repeat (@nzero F N) k) c nonev = Some (one_hot k c).
  Proof.
    intros H. destruct (upd (repeat nzero k) c nonev) as [l|] eqn:E.
    2:{ apply upd_None in E. rewrite repeat_length in E. lia. }
    f_equal. apply nth_error_ext'. intros i. rewrite (upd_nth_error _ _ _ _ i E). unfold one_hot.
    destruct (le_lt_dec k i) as [Hi|Hi].
    - rewrite (proj2 (nth_error_None (map _ (seq 0 k)) i)) by (rewrite map_length, seq_length; lia).
      destruct (Nat.eqb_spec i c); [lia|]. apply nth_error_None. rewrite repeat_length. lia.
    - rewrite (map_nth_error _ _ _ (d := i)).
      2:{ rewrite (nth_error_nth' _ 0) by (rewrite seq_length; lia). now rewrite seq_nth by lia. }
      destruct (Nat.eqb_spec i c); auto. rewrite (nth_error_nth' _ nzero) by (rewrite repeat_length; lia). f_equal. apply nth_repeat.
  Qed.
  Lemma argmax_best row k : length row = k -> 0 < k -> (forall x, In x row -> nnan x = false) ->
    exists c v, argmax row = Ok (c, v) /\ is_best k (fun j => nth j row nzero) c.
  Proof.
    intros L K NN. destruct (argmax_spec row) as (c & v & E & A & B & C & D); auto; [destruct row; [cbn in L; lia|discriminate]|].
    exists c, v. split; auto. split; [lia|]. rewrite B. split; intros; [apply C|apply D]; lia.
  Qed.
  Context {P : Type} (D : @Distribution F P).
  Theorem predict_one_hot (m : NaiveBayes F P) inputs lp k : get_log_probs D m inputs = Ok lp -> nb_cluster_count m = Some k ->
    mwf lp -> nrows lp = nrows inputs -> mcols lp = k -> 0 < k -> (forall row x, In row (mrows lp) -> In x row -> nnan x = false) ->
    exists out cs, nb_predict D m inputs = Ok out /\ nrows out = nrows inputs /\ mcols out = k /\ length cs = nrows inputs /\
      forall i, i < nrows inputs -> nth i (mrows out) [] = one_hot k (nth i cs 0) /\ is_best k (fun c => nth c (nth i (mrows lp) []) nzero) (nth i cs 0).
  Proof.
    intros E K W L C K0 NN. unfold nb_predict. rewrite E, K. cbn [rbind]. unfold get_classes.
    assert (Q : forall rows, (forall r, In r rows -> In r (mrows lp)) -> exists cs, rmap (fun row => let? p := argmax row in Ok (fst p)) rows = Ok cs /\
       Forall2 (fun row c => is_best k (fun j => nth j row nzero) c) rows cs).
    { induction rows as [|r rows IH]; intros IN; cbn [rmap]; [exists []; auto|].
      destruct IH as (cs & -> & H); [intros; apply IN; now right|].
      destruct (argmax_best r k) as (c & v & -> & B); auto.
      - unfold mwf in W. rewrite Forall_forall in W. rewrite (W r) by (apply IN; now left). exact C.
      - intros x Hx. apply (NN r); auto. apply IN. now left.
      - cbn. exists (c :: cs). auto. }
    destruct (Q (mrows lp)) as (cs & -> & H); auto. cbn [rbind].
    destruct (Forall2_nth_iff _ _ _ [] 0 H) as [Lc Hn].
    rewrite (rmap_ok _ (one_hot k)).
    2:{ intros c Hc. unfold one_hot_row. rewrite upd_onehot; auto. destruct (In_nth _ _ 0 Hc) as (i & Hi & <-). apply Hn. lia. }
    cbn [rbind]. rewrite map_length, <- Lc. fold (nrows lp). rewrite L, Nat.eqb_refl. cbn [rassert].
    exists (Mat (map (one_hot k) cs) k), cs. split; auto. unfold nrows at 1. cbn [mrows mcols]. rewrite map_length.
    assert (Lc' : length cs = nrows inputs) by (rewrite <- Lc; exact L). repeat split; auto.
    - rewrite (nth_indep _ [] (one_hot k 0)) by (rewrite map_length; lia). now rewrite map_nth.
    - apply Hn. fold (nrows lp). lia.
    - apply Hn. fold (nrows lp). lia.
    - apply Hn. fold (nrows lp). lia.
  Qed.
  Theorem predict_untrained (m : NaiveBayes F P) inputs : nb_distr m = None \/ nb_class_prior m = None -> nb_predict D m inputs = Err UntrainedModel.
  Proof. unfold nb_predict, get_log_probs. intros [->| ->]; [reflexivity|]. now destruct (nb_distr m). Qed.
End Predict.

(** ** Labels *)
Section Labels.
  Context {F : Type} {N : Num F}.
  Lemma find_class_spec (row : list F) : forall i c, is_label row c -> find_class row i = Ok (i + c).
  Proof.
    induction row as [|r row IH]; intros i c (A & B & C); cbn in A; [lia|]. cbn [find_class]. destruct c as [|c].
    - cbn [nth] in B. rewrite B. f_equal. lia.
    - pose proof (C 0 ltac:(lia)) as C0. cbn [nth] in C0. rewrite C0, (IH (S i) c); [f_equal; lia|]. split; [lia|]. split; [exact B|]. intros j Hj. apply (C (S j)). lia.
  Qed.
  Lemma find_classes_spec rows cs : Forall2 is_label rows cs -> find_classes rows = (cs, Ok tt).
  Proof. induction 1 as [|r c rows cs H H2 IH]; cbn; auto. rewrite (find_class_spec r 0 c H), IH. reflexivity. Qed.
  Lemma labels_lt (targets : matrix F) cs : mwf targets -> labelled targets cs -> Forall (fun c => c < mcols targets) cs /\ length cs = nrows targets.
  Proof.
    intros W H. split; [|symmetry; exact (proj1 (Forall2_nth_iff _ _ _ [] 0 H))]. unfold labelled in H. apply Forall_forall. intros c Hc.
    unfold mwf in W. induction H as [|r d rows cs' H1 H2 IH]; [easy|]. inversion W; subst. destruct Hc as [<-|Hc]; auto.
    destruct H1 as (A & _). lia.
  Qed.

  (** ** Parameters after training *)
  Definition sel (inputs : matrix F) ids : matrix F := Mat (map (fun i => nth i (mrows inputs) []) ids) (mcols inputs).
  Definition trained_row (inputs : matrix F) cs (f : matrix F -> list F) (w c : nat) : list F :=
    match class_rows cs c with [] => repeat nzero w | ids => f (sel inputs ids) end.

  Lemma smooth_train {Fn : NumFn F} upd0 joint (f : matrix F -> list F) inputs cs w :
    (forall p m c, upd0 p m c = smooth_set p c (f m)) -> Forall (fun i => i < nrows inputs) (seq 0 (length cs)) ->
    forall n s p A, length A = s -> mrows (s_log_probs p) = A ++ repeat (repeat nzero w) n ->
    exists p', update_classes {| d_new := fun a b => {| s_log_probs := mzeros a b |}; d_update := upd0; d_joint := joint |} inputs cs (seq s n) p = (p', Ok tt) /\
      mrows (s_log_probs p') = A ++ map (trained_row inputs cs f w) (seq s n) /\ mcols (s_log_probs p') = mcols (s_log_probs p).
  Proof.
    intros HU HI. induction n as [|n IH]; intros s p A LA E; cbn [seq update_classes].
    - exists p. cbn [map repeat] in *. auto.
    - assert (ST : trained_row inputs cs f w s = match class_rows cs s with [] => repeat nzero w | ids => f (sel inputs ids) end) by reflexivity.
      assert (Hids : Forall (fun i => i < nrows inputs) (class_rows cs s)).
      { apply Forall_forall. intros i Hi. pose proof (class_rows_lt cs s) as Q. rewrite Forall_forall in Q, HI. apply HI, in_seq. specialize (Q i Hi). lia. }
      destruct (class_rows cs s) as [|i ids] eqn:EC.
      + destruct (IH (S s) p (A ++ [repeat nzero w])) as (p' & E1 & E2 & E3).
        * rewrite app_length. cbn. lia.
        * rewrite E, <- app_assoc. reflexivity.
        * exists p'. split; [exact E1|]. split; auto. rewrite E2, <- app_assoc. cbn [map]. rewrite ST. reflexivity.
      + rewrite select_rows_spec by auto. cbn [d_update]. rewrite HU. unfold smooth_set, set_row. rewrite E. cbn [repeat]. rewrite <- LA, upd_spec. 
        destruct (IH (S s) {| s_log_probs := Mat (A ++ f (sel inputs (i :: ids)) :: repeat (repeat nzero w) n) (mcols (s_log_probs p)) |} (A ++ [f (sel inputs (i :: ids))])) as (p' & E1 & E2 & E3).
        * rewrite app_length. cbn. lia.
        * cbn [s_log_probs mrows]. rewrite <- app_assoc. reflexivity.
        * exists p'. rewrite LA. split; [exact E1|]. split; auto. rewrite E2, <- app_assoc. cbn [map]. rewrite ST. reflexivity.
  Qed.
  Lemma gauss_train {Fn : NumFn F} inputs cs w : Forall (fun i => i < nrows inputs) (seq 0 (length cs)) ->
    (forall c, In c cs -> 2 <= length (class_rows cs c)) ->
    forall n s p A B, length A = s -> length B = s -> mrows (g_theta p) = A ++ repeat (repeat nzero w) n -> mrows (g_sigma p) = B ++ repeat (repeat nzero w) n ->
    exists p', update_classes Gaussian inputs cs (seq s n) p = (p', Ok tt) /\
      mrows (g_theta p') = A ++ map (trained_row inputs cs col_mean w) (seq s n) /\ mcols (g_theta p') = mcols (g_theta p) /\
      mrows (g_sigma p') = B ++ map (trained_row inputs cs col_var w) (seq s n) /\ mcols (g_sigma p') = mcols (g_sigma p).
  Proof.
    intros HI H2. induction n as [|n IH]; intros s p A B LA LB EA EB; cbn [seq update_classes].
    - exists p. cbn [map repeat] in *. repeat split; auto.
    - assert (ST : forall f, trained_row inputs cs f w s = match class_rows cs s with [] => repeat nzero w | ids => f (sel inputs ids) end) by reflexivity.
      assert (Hids : Forall (fun i => i < nrows inputs) (class_rows cs s)).
      { apply Forall_forall. intros i Hi. pose proof (class_rows_lt cs s) as Q. rewrite Forall_forall in Q, HI. apply HI, in_seq. specialize (Q i Hi). lia. }
      destruct (class_rows cs s) as [|i ids] eqn:EC.
      + destruct (IH (S s) p (A ++ [repeat nzero w]) (B ++ [repeat nzero w])) as (p' & E1 & E2 & E3 & E4 & E5).
        1, 2: rewrite app_length; cbn; lia.
        1: rewrite EA, <- app_assoc; reflexivity.
        1: rewrite EB, <- app_assoc; reflexivity.
        exists p'. split; [exact E1|]. rewrite E2, E4, <- !app_assoc. cbn [map]. rewrite !ST. auto.
      + assert (IN : In s cs).
        { assert (Q : In i (class_rows cs s)) by (rewrite EC; now left). apply filter_In in Q. destruct Q as [Q1 Q2]. apply Nat.eqb_eq in Q2.
          apply in_seq in Q1. rewrite <- Q2. apply nth_In. lia. }
        specialize (H2 s IN). rewrite EC in H2.
        rewrite select_rows_spec by auto. cbn [d_update Gaussian]. unfold gauss_update. fold (sel inputs (i :: ids)).
        assert (E0 : (nrows (sel inputs (i :: ids)) <? 2) = false). { apply Nat.ltb_ge. unfold nrows, sel. cbn [mrows]. now rewrite map_length. }
        rewrite E0. unfold set_row. rewrite EA, EB. cbn [repeat]. rewrite <- LA, upd_spec. rewrite LA, <- LB, upd_spec.
        match goal with |- context [update_classes _ _ _ _ ?p1] => set (p1' := p1) end.
        destruct (IH (S s) p1' (A ++ [col_mean (sel inputs (i :: ids))]) (B ++ [col_var (sel inputs (i :: ids))])) as (p' & E1 & E2 & E3 & E4 & E5).
        1, 2: rewrite app_length; cbn; lia.
        1: unfold p1'; cbn [g_theta mrows]; rewrite <- app_assoc; reflexivity.
        1: unfold p1'; cbn [g_sigma mrows]; rewrite <- app_assoc; reflexivity.
        exists p'. rewrite LB. split; [exact E1|]. rewrite E2, E4, <- !app_assoc. cbn [map]. rewrite !ST. auto.
  Qed.
End Labels.

Section Train.
  Context {F : Type} {N : Num F} {Fn : NumFn F}.
  Definition priors_of (inputs : matrix F) (k : nat) (cs : list nat) : list F :=
    map (fun c => ndiv (nofnat (length (class_rows cs c))) (nofnat (nrows inputs))) (seq 0 k).
  Lemma rows_in_range (inputs targets : matrix F) (cs : list nat) : nrows targets = nrows inputs -> length cs = nrows targets ->
    Forall (fun i => i < nrows inputs) (seq 0 (length cs)).
  Proof. intros A B. apply Forall_forall. intros i Hi. apply in_seq in Hi. lia. Qed.

  Lemma smooth_nb_train upd0 joint (f : matrix F -> list F) (m : NaiveBayes F (Smooth F)) inputs targets cs :
    (forall p m c, upd0 p m c = smooth_set p c (f m)) -> mwf targets -> nrows targets = nrows inputs -> labelled targets cs ->
    exists m' lp, nb_train {| d_new := fun a b => {| s_log_probs := mzeros a b |}; d_update := upd0; d_joint := joint |} m inputs targets = (m', Ok tt) /\
      nb_cluster_count m' = Some (mcols targets) /\ nb_class_prior m' = Some (priors_of inputs (mcols targets) cs) /\ nb_distr m' = Some lp /\
      s_log_probs lp = Mat (map (trained_row inputs cs f (mcols inputs)) (seq 0 (mcols targets))) (mcols inputs).
  Proof.
    intros HU W L H. destruct (labels_lt _ _ W H) as [_ Lc]. unfold nb_train. rewrite (find_classes_spec _ _ H).
    destruct (smooth_train upd0 joint f inputs cs (mcols inputs) HU (rows_in_range _ _ _ L Lc) (mcols targets) 0
      {| s_log_probs := mzeros (mcols targets) (mcols inputs) |} []) as (p' & E1 & E2 & E3); auto.
    cbn [d_new]. rewrite E1. eexists _, p'. split; [reflexivity|]. cbn [nb_cluster_count nb_class_prior nb_distr]. split; auto. split.
    - unfold priors_of, class_counts. now rewrite map_map.
    - split; auto. destruct (s_log_probs p') as [rows w]. cbn [mrows mcols] in *. cbn [app] in E2. now subst.
  Qed.
  Lemma gauss_nb_train (m : NaiveBayes F (Gauss F)) inputs targets cs :
    mwf targets -> nrows targets = nrows inputs -> labelled targets cs -> (forall c, In c cs -> 2 <= length (class_rows cs c)) ->
    exists m' p, nb_train Gaussian m inputs targets = (m', Ok tt) /\
      nb_cluster_count m' = Some (mcols targets) /\ nb_class_prior m' = Some (priors_of inputs (mcols targets) cs) /\ nb_distr m' = Some p /\
      g_theta p = Mat (map (trained_row inputs cs col_mean (mcols inputs)) (seq 0 (mcols targets))) (mcols inputs) /\
      g_sigma p = Mat (map (trained_row inputs cs col_var (mcols inputs)) (seq 0 (mcols targets))) (mcols inputs).
  Proof.
    intros W L H H2. destruct (labels_lt _ _ W H) as [_ Lc]. unfold nb_train. rewrite (find_classes_spec _ _ H).
    destruct (gauss_train inputs cs (mcols inputs) (rows_in_range _ _ _ L Lc) H2 (mcols targets) 0
      {| g_theta := mzeros (mcols targets) (mcols inputs); g_sigma := mzeros (mcols targets) (mcols inputs) |} [] []) as (p' & E1 & E2 & E3 & E4 & E5); auto.
    cbn [d_new Gaussian]. rewrite E1. eexists _, p'. split; [reflexivity|]. cbn [nb_cluster_count nb_class_prior nb_distr]. split; auto. split.
    - unfold priors_of, class_counts. now rewrite map_map.
    - split; auto. destruct p' as [[r1 w1] [r2 w2]]. cbn [g_theta g_sigma mrows mcols app mzeros] in *. subst. auto.
  Qed.
End Train.
