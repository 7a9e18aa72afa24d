(** * Naive Bayes with infinities and NaN: classes that were never seen *)
From Coq Require Import List Arith Lia Bool Reals Lra.
From Verif Require Import Base BaseLemmas Num NumX NumFn NumOrd ArgLemmas Linalg LinalgR Spec_Calc Spec_Transforms Model_KMeans Proof_KMeans Proof_KMeansEx Model_NaiveBayes Spec_NaiveBayes Proof_NaiveBayes Proof_NaiveBayes2.
Import ListNotations.

(** ** [argmax] in the presence of NaN *)
Section Arg.
  Context {F : Type} {N : Num F} {O : NumOrd F}.
  Lemma argbest_nan (l : list F) : forall i bi bv, nnan bv = true -> argbest (fun v m => nltb m v) l i bi bv = (bi, bv).
  Proof.
    induction l as [|x l IH]; intros i bi bv H; cbn [argbest]; auto. destruct (nltb bv x) eqn:E; auto. apply no_nan in E. destruct E. congruence.
  Qed.
  Lemma argbest_not (l : list F) (bad : F -> Prop) : (forall v x, bad x -> nltb v x = false) ->
    forall pre i bi bv c v, length pre = i -> bi < i -> (0 < bi -> ~ bad (nth bi pre nzero)) -> argbest (fun v m => nltb m v) l i bi bv = (c, v) -> c < i + length l /\ (0 < c -> ~ bad (nth c (pre ++ l) nzero)).
  Proof.
    intros HB. induction l as [|x l IH]; intros pre i bi bv c v L Hb NB E; cbn [argbest] in E.
    - injection E as <- <-. rewrite app_nil_r. split; [cbn; lia|auto].
    - assert (X : pre ++ x :: l = (pre ++ [x]) ++ l) by (now rewrite <- app_assoc). rewrite X.
      destruct (nltb bv x) eqn:EL.
      + apply (IH (pre ++ [x])) in E; [|rewrite app_length; cbn; lia|lia|].
        * cbn. split; [lia|]. apply E.
        * intros _. rewrite app_nth2, L, Nat.sub_diag by lia. cbn. intros Q. rewrite (HB bv x Q) in EL. discriminate.
      + apply (IH (pre ++ [x])) in E; [|rewrite app_length; cbn; lia|lia|].
        * cbn. split; [lia|]. apply E.
        * intros P. rewrite app_nth1 by lia. auto.
  Qed.
  Lemma argmax_not (row : list F) (bad : F -> Prop) : (forall v x, bad x -> nltb v x = false) -> 0 < length row ->
    exists c v, argmax row = Ok (c, v) /\ c < length row /\ (0 < c -> ~ bad (nth c row nzero)) /\ (nnan (nth 0 row nzero) = true -> c = 0).
  Proof.
    intros HB L. destruct row as [|x row]; [cbn in L; lia|]. cbn [argmax]. destruct (argbest _ row 1 0 x) as [c v] eqn:E. exists c, v. split; auto.
    destruct (argbest_not row bad HB [x] 1 0 x c v) as [A B]; auto; [lia|]. split; [cbn; lia|]. split; [exact B|].
    cbn [nth]. intros H. rewrite argbest_nan in E by auto. now injection E.
  Qed.
  Lemma argmax_first_bad (row : list F) (bad : F -> Prop) : (forall v x, bad x -> nltb v x = false) -> (forall v, In v row -> ~ bad v -> nltb (nth 0 row nzero) v = true) ->
    (exists j, j < length row /\ ~ bad (nth j row nzero)) -> bad (nth 0 row nzero) -> forall c v, argmax row = Ok (c, v) -> 0 < c.
  Proof.
    intros HB HW (j & Hj & NB) B0 c v. destruct row as [|x row]; [discriminate|]. cbn [argmax nth] in *. intros E. destruct (Nat.eq_dec c 0) as [->|]; [|lia]. exfalso.
    injection E as E. destruct j as [|j]; [contradiction|]. cbn in Hj, NB. apply Nat.succ_lt_mono in Hj.
    assert (G : forall l i bi bv c v, 0 < bi -> 0 < i -> argbest (fun v m => nltb m v) l i bi bv = (c, v) -> 0 < c).
    { induction l as [|y l IH]; intros i bi bv c' v' Hb Hi Q; cbn [argbest] in Q; [now injection Q as <- <-|]. destruct (nltb bv y); eapply IH; [| |exact Q| | |exact Q]; lia. }
    assert (K : forall l i, (forall v, In v l -> In v row) -> 0 < i -> (exists j, j < length l /\ ~ bad (nth j l nzero)) -> argbest (fun v m => nltb m v) l i 0 x = (0, v) -> False).
    { induction l as [|y l IH]; intros i SUB Hi (q & Hq & Nq) Q; cbn in Hq; [lia|]. cbn [argbest] in Q. destruct (nltb x y) eqn:EL.
      - apply G in Q; lia.
      - destruct q as [|q]; [cbn in Nq; rewrite HW in EL; [discriminate| |exact Nq]; right; apply SUB; now left|]. apply (IH (S i)); auto; [intros; apply SUB; now right|]. exists q. split; [lia|exact Nq]. }
    apply (K row 1); auto. eauto.
  Qed.
End Arg.

(** ** Scores of an unseen class *)
Lemma fold_inf (s : X) l a : s = PInf \/ s = NInf -> Forall (fun x => x = s \/ x = NaN) l -> l <> [] -> (exists r, a = Fin r) ->
  fold_left xadd l a = s \/ fold_left xadd l a = NaN.
Proof.
  intros HS F NE (r & ->). destruct l as [|x l]; [easy|]. inversion F as [|? ? Hx Fl]; subst. cbn [fold_left].
  assert (A : xadd (Fin r) x = s \/ xadd (Fin r) x = NaN) by (destruct Hx as [->| ->], HS as [->| ->]; cbn; auto).
  revert A. generalize (xadd (Fin r) x). clear Hx NE F. induction Fl as [|y l Hy Fl IH]; intros a A; cbn [fold_left]; auto.
  apply IH. destruct A as [->| ->], HS as [->| ->], Hy as [->| ->]; cbn; auto.
Qed.
Lemma fold_inf_only (s : X) l a : s = PInf \/ s = NInf -> Forall (fun x => x = s) l -> l <> [] -> (exists r, a = Fin r) -> fold_left xadd l a = s.
Proof.
  intros HS F NE (r & ->). destruct l as [|x l]; [easy|]. inversion F as [|? ? Hx Fl]; subst. cbn [fold_left].
  assert (A : xadd (Fin r) s = s) by (destruct HS as [->| ->]; cbn; auto). rewrite A. clear A NE F.
  induction Fl as [|y l Hy Fl IH]; cbn [fold_left]; auto. subst y. destruct HS as [->| ->]; cbn; apply IH.
Qed.
Lemma map_repeat' {A B} (f : A -> B) a n : map f (repeat a n) = repeat (f a) n.
Proof. induction n; cbn; congruence. Qed.
Lemma fold_left_add_vsum (l : list X) : vsum l = fold_left xadd l (Fin 0). Proof. reflexivity. Qed.

Lemma gauss_unseen (x : list R) w : length x = w -> 0 < w -> gauss_score (Fin 0) (repeat (Fin 0) w) (repeat (Fin 0) w) (map Fin x) = NaN.
Proof.
  intros L W. unfold gauss_score. rewrite !fold_left_add_vsum.
  rewrite (fold_inf_only NInf (map _ (repeat (Fin 0) w))); auto; [| | |eauto].
  2:{ apply Forall_map, Forall_forall. intros s Hs. apply repeat_spec in Hs. subst s. cbn. rewrite !Rmult_0_l. destruct (Rlt_dec 0 0); [lra|]. reflexivity. }
  2:{ destruct w; [lia|discriminate]. }
  assert (R1 : forall l, Forall (fun q => exists r, q = Fin r /\ (0 <= r)%R) l -> Forall (fun q => q = PInf \/ q = NaN) (map2 ndiv l (repeat (Fin 0) w))).
  { intros l. generalize w. induction l as [|q l IH]; intros w0 F; cbn [map2]; [constructor|]. inversion F as [|? ? (r & -> & Hr) Fl]; subst. destruct w0; cbn [repeat map2]; constructor; auto.
    cbn. destruct (Req_EM_T 0 0); [|lra]. unfold sgn_inf. destruct (Rlt_dec 0 r); auto. destruct (Rlt_dec r 0); auto; lra. }
  assert (R2 : Forall (fun q => exists r, q = Fin r /\ (0 <= r)%R) (map (fun d => nmul d d) (vsub (map Fin x) (repeat (Fin 0) w)))).
  { apply Forall_map. unfold vsub. clear L R1. revert w W. induction x as [|a x IH]; intros w W; cbn [map map2]; [constructor|]. destruct w as [|w]; [lia|]. cbn [repeat map2]. constructor.
    - cbn. eexists. split; [reflexivity|]. nra.
    - destruct w; [destruct x; cbn; constructor|]. apply IH. lia. }
  assert (NE : map2 ndiv (map (fun d => nmul d d) (vsub (map Fin x) (repeat (Fin 0) w))) (repeat (Fin 0) w) <> []).
  { intros Q. apply (f_equal (@length _)) in Q. unfold vsub in Q. rewrite map2_length, map_length, map2_length, map_length, repeat_length, L in Q. cbn in Q. lia. }
  assert (P1 : nmul (nopp half) NInf = PInf).
  { unfold half, two. cbn. destruct (Req_EM_T (1+1) 0); [lra|]. cbn. unfold sgn_inf. destruct (Rlt_dec 0 _) as [|Q]; auto. exfalso. apply Q. lra. }
  rewrite P1.
  assert (P2 : @half X _ = Fin (1/2)). { unfold half, two. cbn. destruct (Req_EM_T (1+1) 0); [lra|]. reflexivity. }
  rewrite P2. destruct (fold_inf PInf _ (Fin 0) (or_introl eq_refl) (R1 _ R2) NE) as [->| ->]; [eauto| |]; cbn; auto.
  unfold sgn_inf. destruct (Rlt_dec 0 (-(1/2))); [exfalso; lra|]. destruct (Rlt_dec (-(1/2)) 0); [|exfalso; lra]. reflexivity.
Qed.
Lemma bernoulli_unseen (x : list R) w : length x = w -> 0 < w -> Forall (fun r => 0 <= r)%R x -> bernoulli_score (Fin 0) (repeat (Fin 0) w) (map Fin x) = NaN.
Proof.
  intros L W P. unfold bernoulli_score.
  assert (E : map (fun l => nln (nsub nonev (nexp l))) (repeat (Fin 0) w) = repeat NInf w).
  { rewrite map_repeat'. f_equal. cbn. rewrite exp_0. destruct (Rlt_dec 0 _) as [Q|]; [exfalso; lra|]. destruct (Rlt_dec _ 0) as [Q|]; [exfalso; lra|]. reflexivity. }
  rewrite E.
  assert (NEw : repeat NInf w <> []) by (destruct w; [lia|discriminate]).
  rewrite (fold_left_add_vsum (repeat NInf w)), (fold_inf_only NInf); auto; [| |eauto].
  2:{ apply Forall_forall. intros s Hs. now apply repeat_spec in Hs. }
  assert (E2 : nadd (nln (Fin 0)) NInf = NInf). { cbn. destruct (Rlt_dec 0 0); [lra|]. reflexivity. }
  rewrite E2.
  assert (E3 : vsub (repeat (Fin 0) w) (repeat NInf w) = repeat PInf w). { clear. unfold vsub. induction w; cbn; auto. now f_equal. }
  rewrite E3. unfold dot. rewrite fold_left_add_vsum.
  destruct (fold_inf PInf (map2 nmul (map Fin x) (repeat PInf w)) (Fin 0)) as [->| ->]; auto.
  - clear - P. revert w. induction P as [|a x Ha P IH]; intros w; cbn [map map2]; [constructor|]. destruct w; cbn [repeat map2]; constructor; auto.
    cbn. unfold sgn_inf. destruct (Rlt_dec 0 a); auto. destruct (Rlt_dec a 0); auto; lra.
  - intros Q. apply (f_equal (@length _)) in Q. rewrite map2_length, map_length, repeat_length, L in Q. cbn in Q. lia.
  - eauto.
Qed.
Lemma multinomial_unseen (x : list R) w : length x = w -> multinomial_score (Fin 0) (repeat (Fin 0) w) (map Fin x) = NInf.
Proof.
  intros L. unfold multinomial_score.
  assert (E : dot (map Fin x) (repeat (Fin 0) w) = Fin 0).
  { unfold dot. rewrite fold_left_add_vsum. clear L. revert w. induction x as [|a x IH]; intros w; cbn [map map2]; auto. destruct w; cbn [repeat map2]; auto.
    cbn [fold_left nmul NumXI xmul xadd]. rewrite Rmult_0_r, Rplus_0_r. apply IH. }
  rewrite E. cbn. destruct (Rlt_dec 0 0); [lra|]. reflexivity.
Qed.

(** ** Predictions *)
Lemma prior_unseen (inputs : matrix X) k cs c : c < k -> 0 < nrows inputs -> ~ In c cs -> nth c (priors_of inputs k cs) nzero = Fin 0.
Proof.
  intros Hc P NI. unfold priors_of. rewrite nth_map_seq by auto. rewrite class_rows_empty by auto. cbn [length nofnat NumXI ndiv xdiv].
  destruct (Req_EM_T (INR (nrows inputs)) 0) as [Z|_]; [apply (INR_eq _ 0) in Z; lia|]. cbn. f_equal. unfold Rdiv. ring.
Qed.
Lemma trained_unseen {F} {N : Num F} (inputs : matrix F) cs f w c : ~ In c cs -> trained_row inputs cs f w c = repeat nzero w.
Proof. intros NI. unfold trained_row. now rewrite class_rows_empty. Qed.

Section Pred.
  Context {P : Type} (D : @Distribution X P).
  (** What the scores say about the rows of the answer. *)
  Lemma predict_rows (m : NaiveBayes X P) Xs k (lp : matrix X) : get_log_probs D m Xs = Ok lp -> nb_cluster_count m = Some k -> 0 < k ->
    nrows lp = nrows Xs -> (forall r, In r (mrows lp) -> length r = k) ->
    exists out cl, nb_predict D m Xs = Ok out /\ nrows out = nrows Xs /\ mcols out = k /\ length cl = nrows Xs /\
      forall i, i < nrows Xs -> nth i (mrows out) [] = one_hot k (nth i cl 0) /\ nth i cl 0 < k /\ exists v, argmax (nth i (mrows lp) []) = Ok (nth i cl 0, v).
  Proof.
    intros E K K0 L W. unfold nb_predict. rewrite E, K. cbn [rbind]. unfold get_classes.
    assert (Q : forall rows : list (list X), (forall r, In r rows -> length r = k) -> exists cl, rmap (fun row => let? p := argmax row in Ok (fst p)) rows = Ok cl /\
       Forall2 (fun row c => c < k /\ exists v, argmax row = Ok (c, v)) rows cl).
    { induction rows as [|r rows IH]; intros IN; cbn [rmap]; [exists []; auto|].
      destruct IH as (cl & -> & H); [intros; apply IN; now right|].
      destruct (argmax_not r (fun _ => False)) as (c & v & E' & B & _); [easy|rewrite (IN r) by (now left); lia|]. rewrite E'.
      cbn. exists (c :: cl). split; auto. constructor; auto. split; [rewrite <- (IN r) by (now left); auto|eauto]. }
    destruct (Q (mrows lp) W) as (cl & -> & H). cbn [rbind].
    destruct (Forall2_nth_iff _ _ _ [] 0 H) as [Lc Hn].
    rewrite (rmap_ok _ (one_hot k)).
    2:{ intros c Hc. unfold one_hot_row. rewrite upd_onehot; auto. destruct (In_nth _ _ 0 Hc) as (i & Hi & <-). apply Hn. lia. }
    cbn [rbind]. rewrite map_length, <- Lc. fold (nrows lp). rewrite L, Nat.eqb_refl. cbn [rassert].
    exists (Mat (map (one_hot k) cl) k), cl. split; auto. unfold nrows at 1. cbn [mrows mcols]. rewrite map_length.
    assert (Lc' : length cl = nrows Xs) by (rewrite <- Lc; exact L). split; [auto|]. split; auto. split; auto.
    intros i Hi. split; [|apply Hn; fold (nrows lp); lia]. apply nth_map. lia.
  Qed.
End Pred.

Lemma one_hot_other {F} {N : Num F} k c d : d < k -> d <> c -> nth d (one_hot k c) nzero = nzero.
Proof. intros H Hn. unfold one_hot. rewrite nth_map_seq by auto. now destruct (Nat.eqb_spec d c). Qed.

Section Unseen.
  Context (inputs : matrix R) (targets : matrix X) (cs : list nat).
  Hypothesis Wt : mwf targets.
  Hypothesis L : nrows targets = nrows inputs.
  Hypothesis H : labelled targets cs.
  Hypothesis P : 0 < nrows inputs.
  Let k := mcols targets.

  Lemma unseen_k : 0 < k.
  Proof.
    unfold k. destruct (labels_lt _ _ Wt H) as [A B]. destruct cs as [|c l]; [cbn in B; lia|]. inversion A; subst. lia.
  Qed.
  Lemma inj_L : nrows targets = nrows (inj inputs). Proof. now rewrite inj_nrows. Qed.

  Definition nan_conclusion {Q} (D : @Distribution X Q) m' (Xs : matrix R) : Prop :=
    exists out, nb_predict D m' (inj Xs) = Ok out /\ nrows out = nrows Xs /\ mcols out = k /\
      forall i, i < nrows Xs ->
        (forall c, 0 < c < k -> ~ In c cs -> nth c (nth i (mrows out) []) (Fin 0) = Fin 0) /\
        (~ In 0 cs -> nth i (mrows out) [] = one_hot k 0).

  Lemma nan_rows {Q} (D : @Distribution X Q) m' (Xs : matrix R) lp : get_log_probs D m' (inj Xs) = Ok lp -> nb_cluster_count m' = Some k ->
    nrows lp = nrows Xs -> (forall r, In r (mrows lp) -> length r = k) ->
    (forall i c, i < nrows Xs -> c < k -> ~ In c cs -> nth c (nth i (mrows lp) []) nzero = NaN) -> nan_conclusion D m' Xs.
  Proof.
    intros E K Lp W HN. destruct (predict_rows D m' (inj Xs) k lp E K unseen_k) as (out & cl & E1 & E2 & E3 & E4 & E5); auto; [now rewrite inj_nrows|].
    rewrite inj_nrows in *. exists out. repeat (split; [assumption|]). intros i Hi. destruct (E5 i Hi) as (A & B & v & C). rewrite A.
    assert (Lr : length (nth i (mrows lp) []) = k) by (apply W, nth_In; fold (nrows lp); lia).
    destruct (argmax_not (nth i (mrows lp) []) (fun x => x = NaN)) as (c & v' & F1 & F2 & F3 & F4).
    { intros ? ? ->. cbn. now destruct v0. }
    { rewrite Lr. apply unseen_k. }
    rewrite C in F1. injection F1 as F1 _. rewrite F1 in *. split.
    - intros d [D0 Dk] ND. apply (@one_hot_other X NumXI); auto. intros ->. apply F3; auto.
    - intros N0. rewrite F4; [reflexivity|]. rewrite (HN i 0 Hi unseen_k N0). reflexivity.
  Qed.

  Theorem gauss_nan (m : NaiveBayes X (Gauss X)) (Xs : matrix R) : (forall c, In c cs -> 2 <= count_occ Nat.eq_dec cs c) ->
    mwf Xs -> mcols Xs = mcols inputs -> 0 < mcols inputs ->
    exists m', nb_train Gaussian m (inj inputs) targets = (m', Ok tt) /\ nan_conclusion Gaussian m' Xs.
  Proof.
    intros H2 WX CX C0. destruct (gauss_nb_train m (inj inputs) targets cs) as (m' & p & E1 & E2 & E3 & E4 & E5 & E6); auto using inj_L.
    { intros. rewrite class_rows_count. auto. }
    exists m'. split; auto.
    assert (Q1 : nrows (g_theta p) = k) by (rewrite E5; unfold nrows; cbn [mrows]; now rewrite map_length, seq_length).
    assert (Q2 : nrows (g_sigma p) = k) by (rewrite E6; unfold nrows; cbn [mrows]; now rewrite map_length, seq_length).
    assert (Q3 : mcols (g_theta p) = mcols inputs) by (now rewrite E5).
    assert (Lp : length (priors_of (inj inputs) (mcols targets) cs) = k) by (unfold priors_of; now rewrite map_length, seq_length).
    eapply nan_rows; [|exact E2| | |].
    - unfold get_log_probs. rewrite E3, E4. cbn [d_joint Gaussian]. unfold gauss_joint. rewrite Lp, Q1, Q2, Q3. change (mcols (inj Xs)) with (mcols Xs).
      rewrite CX, Nat.leb_refl, Nat.eqb_refl, orb_true_r. reflexivity.
    - unfold nrows at 1. cbn [mrows inj]. now rewrite !map_length.
    - cbn [mrows]. intros r Hr. apply in_map_iff in Hr. destruct Hr as (x & <- & _). now rewrite map_length, seq_length.
    - intros i c Hi Hc NI. cbn [mrows]. rewrite (nth_map _ _ _ _ []) by (cbn [mrows inj]; now rewrite map_length). rewrite nth_map_seq by auto.
      rewrite prior_unseen; auto; [|now rewrite inj_nrows]. rewrite nth_inj, E5, E6. cbn [mrows]. rewrite !nth_map_seq by auto. rewrite !trained_unseen by auto.
      apply gauss_unseen; auto. change (mcols (inj inputs)) with (mcols inputs). rewrite <- CX. now apply mwf_row.
  Qed.

  Lemma smooth_scores upd0 score (f : matrix X -> list X) (m : NaiveBayes X (Smooth X)) (Xs : matrix R) :
    (forall p m c, upd0 p m c = smooth_set p c (f m)) -> mcols Xs = mcols inputs ->
    let D := {| d_new := fun a b => {| s_log_probs := mzeros a b |}; d_update := upd0; d_joint := smooth_joint score |} in
    exists m' lp, nb_train D m (inj inputs) targets = (m', Ok tt) /\ nb_cluster_count m' = Some k /\ get_log_probs D m' (inj Xs) = Ok lp /\
      nrows lp = nrows Xs /\ (forall r, In r (mrows lp) -> length r = k) /\
      forall i c, i < nrows Xs -> c < k -> nth c (nth i (mrows lp) []) nzero =
        score (nth c (priors_of (inj inputs) k cs) nzero) (trained_row (inj inputs) cs f (mcols inputs) c) (map Fin (nth i (mrows Xs) [])).
  Proof.
    intros HU CX D. destruct (smooth_nb_train upd0 (smooth_joint score) f m (inj inputs) targets cs) as (m' & p & E1 & E2 & E3 & E4 & E5); auto using inj_L.
    assert (Q1 : nrows (s_log_probs p) = k) by (rewrite E5; unfold nrows; cbn [mrows]; now rewrite map_length, seq_length).
    assert (Q3 : mcols (s_log_probs p) = mcols inputs) by (now rewrite E5).
    assert (Lp : length (priors_of (inj inputs) (mcols targets) cs) = k) by (unfold priors_of; now rewrite map_length, seq_length).
    exists m'. eexists. split; [exact E1|]. split; [exact E2|]. split; [|split; [|split]].
    - unfold get_log_probs. rewrite E3, E4. cbn [d_joint D]. unfold smooth_joint. rewrite Lp, Q1, Q3. change (mcols (inj Xs)) with (mcols Xs).
      rewrite CX, !Nat.eqb_refl. reflexivity.
    - unfold nrows at 1. cbn [mrows inj]. now rewrite !map_length.
    - cbn [mrows]. intros r Hr. apply in_map_iff in Hr. destruct Hr as (x & <- & _). now rewrite map_length, seq_length.
    - intros i c Hi Hc. cbn [mrows]. rewrite (nth_map _ _ _ _ []) by (cbn [mrows inj]; now rewrite map_length). rewrite nth_map_seq by auto.
      rewrite nth_inj, E5. cbn [mrows]. rewrite !nth_map_seq by auto. reflexivity.
  Qed.
  Definition bern_rowX (m : matrix X) : list X :=
    map (fun f => nsub (nln f) (nln (nadd (nofnat (nrows m)) (nmul two nonev)))) (map (fun s => nadd s nonev) (col_sums m)).
  Definition mult_rowX (m : matrix X) : list X :=
    map (fun f => nsub (nln f) (nln (vsum (map (fun s => nadd s nonev) (col_sums m))))) (map (fun s => nadd s nonev) (col_sums m)).

  Theorem bernoulli_nan (m : NaiveBayes X (Smooth X)) (Xs : matrix R) :
    mwf Xs -> mcols Xs = mcols inputs -> 0 < mcols inputs -> (forall i j, i < nrows Xs -> j < mcols Xs -> (0 <= entry Xs i j)%R) ->
    exists m', nb_train Bernoulli m (inj inputs) targets = (m', Ok tt) /\ nan_conclusion Bernoulli m' Xs.
  Proof.
    intros WX CX C0 NN. destruct (smooth_scores bernoulli_update bernoulli_score bern_rowX m Xs) as (m' & lp & E1 & E2 & E3 & E4 & E5 & E6); auto.
    exists m'. split; auto. apply (nan_rows _ _ _ lp); auto. intros i c Hi Hc NI. rewrite E6, prior_unseen, trained_unseen; auto; [|now rewrite inj_nrows].
    assert (Lr : length (nth i (mrows Xs) []) = mcols Xs) by (now apply mwf_row).
    apply bernoulli_unseen; auto; [congruence|]. apply Forall_forall. intros x Hx. destruct (In_nth _ _ 0%R Hx) as (j & Hj & <-). apply NN; auto. now rewrite <- Lr.
  Qed.

  Lemma col_sums_sel ids : col_sums (sel (inj inputs) ids) = map Fin (col_sums (sel inputs ids)).
  Proof.
    unfold col_sums. change (mcols (sel (inj inputs) ids)) with (mcols inputs). change (mcols (sel inputs ids)) with (mcols inputs). rewrite map_map. apply map_ext. intros j.
    rewrite <- vsum_Fin. f_equal. unfold col, sel. cbn [mrows]. rewrite !map_map. apply map_ext. intros i. rewrite nth_inj. change (@nzero X NumXI) with (Fin 0). apply map_nth.
  Qed.
  Lemma dot_Fin (a b : list R) : exists r, dot (map Fin a) (map Fin b) = Fin r.
  Proof.
    exists (dot a b). unfold dot. rewrite <- vsum_Fin. f_equal. revert b. induction a as [|x a IH]; intros [|y b]; cbn [map map2]; auto. f_equal. apply IH.
  Qed.
  Theorem multinomial_seen (m : NaiveBayes X (Smooth X)) (Xs : matrix R) :
    mwf Xs -> mcols Xs = mcols inputs -> (forall i j, i < nrows inputs -> j < mcols inputs -> (0 <= entry inputs i j)%R) ->
    exists m' out, nb_train Multinomial m (inj inputs) targets = (m', Ok tt) /\ nb_predict Multinomial m' (inj Xs) = Ok out /\ nrows out = nrows Xs /\ mcols out = k /\
      forall i, i < nrows Xs -> exists c, In c cs /\ nth i (mrows out) [] = one_hot k c.
  Proof.
    intros WX CX NN. pose proof unseen_k as K0. destruct (labels_lt _ _ Wt H) as [LT Lc].
    destruct (smooth_scores multinomial_update multinomial_score mult_rowX m Xs) as (m' & lp & E1 & E2 & E3 & E4 & E5 & E6); auto.
    destruct (predict_rows _ m' (inj Xs) k lp E3 E2 unseen_k) as (out & cl & P1 & P2 & P3 & P4 & P5); auto; [now rewrite inj_nrows|].
    rewrite inj_nrows in *. exists m', out. repeat (split; [assumption|]). intros i Hi. destruct (P5 i Hi) as (A & B & v & C). exists (nth i cl 0). split; auto.
    set (row := nth i (mrows lp) []) in *.
    assert (Lr : length row = k) by (apply E5, nth_In; fold (nrows lp); lia).
    assert (FIN : forall c, In c cs -> exists r, nth c row nzero = Fin r).
    { intros c IN. assert (Hc : c < k) by (rewrite Forall_forall in LT; now apply LT). unfold row. rewrite E6 by auto.
      assert (TR : exists l, trained_row (inj inputs) cs mult_rowX (mcols inputs) c = map Fin l).
      { unfold trained_row. pose proof (class_rows_nonempty cs c IN) as NE. destruct (class_rows cs c) as [|i0 ids] eqn:EC; [cbn in NE; lia|]. rewrite <- EC in *.
        unfold mult_rowX. rewrite col_sums_sel. set (S0 := col_sums (sel inputs (class_rows cs c))).
        assert (S1 : Forall (fun s => 0 <= s)%R S0).
        { apply Forall_forall. intros s Hs. destruct (In_nth _ _ 0%R Hs) as (j & Hj & <-). unfold S0 in *. rewrite col_sums_length in Hj. cbn [mcols sel] in Hj.
          rewrite sums_entry; auto; [|lia]. apply csum_ge0. intros; apply NN; auto. }
        assert (S2 : map (fun s => nadd s nonev) (map Fin S0) = map Fin (map (fun s => s + 1)%R S0)) by (rewrite !map_map; reflexivity).
        rewrite S2, vsum_Fin, vsum_R.
        exists (map (fun s => (ln s - ln (rsum (map (fun s => s + 1) S0)))%R) (map (fun s => s + 1)%R S0)). rewrite (map_map Fin), (map_map _ Fin). apply map_ext_in. intros s Hs.
        assert (sp : (0 < s)%R). { apply in_map_iff in Hs. destruct Hs as (s' & <- & Hs'). rewrite Forall_forall in S1. specialize (S1 s' Hs'). lra. }
        assert (tp : (0 < rsum (map (fun s => s + 1) S0))%R).
        { destruct S0 as [|s1 S0']; [easy|]. inversion S1; subst. cbn [map rsum]. assert (0 <= rsum (map (fun s => (s + 1)%R) S0'))%R; [|lra].
          apply rsum_ge0. apply Forall_map. eapply Forall_impl; [|eassumption]. cbv beta. intros; lra. }
        cbn [nsub nln NumXI NumFnX xln]. destruct (Rlt_dec 0 s); [|lra]. destruct (Rlt_dec 0 _); [|lra]. reflexivity. }
      destruct TR as (l & ->). unfold priors_of. rewrite nth_map_seq by auto. cbn [nofnat NumXI ndiv xdiv].
      pose proof (class_rows_nonempty cs c IN) as NE. apply lt_0_INR in NE. rewrite inj_nrows. pose proof (lt_0_INR _ P) as P'.
      destruct (Req_EM_T (INR (nrows inputs)) 0); [lra|]. unfold multinomial_score. destruct (dot_Fin (nth i (mrows Xs) []) l) as (r & ->). cbn [nln NumFnX xln].
      destruct (Rlt_dec 0 _) as [|Z]; [cbn; eauto|]. exfalso. apply Z. now apply Rdiv_lt_0_compat. }
    assert (INF : forall c, c < k -> ~ In c cs -> nth c row nzero = NInf).
    { intros c Hc NI. unfold row. rewrite E6, prior_unseen, trained_unseen; auto; [|now rewrite inj_nrows]. apply multinomial_unseen. rewrite <- CX. now apply mwf_row. }
    destruct (in_dec Nat.eq_dec (nth i cl 0) cs) as [|NI]; auto. exfalso.
    pose proof (INF _ B NI) as Q.
    assert (HB : forall v x : X, x = NInf -> nltb v x = false) by (intros [] ? ->; reflexivity).
    destruct (argmax_not row (fun x => x = NInf)) as (c & v' & F1 & F2 & F3 & F4); auto; [rewrite Lr; apply unseen_k|].
    rewrite C in F1. injection F1 as F1 _.
    destruct (Nat.eq_dec c 0) as [Z|Z]; [|apply F3; [lia|congruence]].
    assert (N0 : ~ In 0 cs) by congruence.
    assert (G : 0 < nth i cl 0); [|lia].
    destruct cs as [|c0 cs']; [cbn in Lc; lia|].
    refine (argmax_first_bad row (fun x => x = NInf) HB _ _ _ _ _ C).
    - intros v0 Hv NB. rewrite (INF 0) by auto. destruct (In_nth _ _ nzero Hv) as (j & Hj & <-). rewrite Lr in Hj.
      destruct (in_dec Nat.eq_dec j (c0 :: cs')) as [J|J]; [destruct (FIN j J) as (r & ->); reflexivity|]. exfalso. apply NB. now apply INF.
    - exists c0. destruct (FIN c0 (or_introl eq_refl)) as (r & ->). split; [|discriminate]. rewrite Lr. now inversion LT.
    - now apply INF.
  Qed.
End Unseen.
