(** * What one NaN does to naive Bayes *)
From Coq Require Import List Arith Lia Bool.
From Verif Require Import Base BaseLemmas Num NumF NumFn NumOrd Linalg LinalgR Model_KMeans Proof_KMeans Model_NaiveBayes Spec_NaiveBayes Proof_NaiveBayes Spec_NaN Proof_NaN.
Import ListNotations.

Definition am (row : list B64) : nat := match argmax row with Ok p => fst p | _ => 0 end.
Lemma argbest_lt (better : B64 -> B64 -> bool) l : forall i bi bv, bi < i + length l -> fst (argbest better l i bi bv) < i + length l.
Proof.
  induction l as [|x l IH]; intros i bi bv H; cbn [argbest length] in *; [exact H|].
  destruct (better x bv); specialize (IH (S i)); cbn in IH; rewrite Nat.add_succ_r; apply IH; lia.
Qed.
Lemma argmax_am row : 0 < length row -> exists v, argmax row = Ok (am row, v) /\ am row < length row.
Proof.
  destruct row as [|x l]; cbn [length]; [lia|]. intros _. unfold am, argmax. destruct (argbest _ l 1 0 x) as [i v] eqn:E. exists v. split; [reflexivity|].
  cbn [fst]. pose proof (argbest_lt (fun v m => nltb m v) l 1 0 x ltac:(lia)) as H. rewrite E in H. exact H.
Qed.
Lemma am_stuck x l : nnan x = true -> am (x :: l) = 0.
Proof.
  intros H. unfold am, argmax. assert (G : forall i, argbest (fun v m => nltb m v) l i 0 x = (0, x)); [|now rewrite G].
  induction l as [|y l IH]; intros i; cbn [argbest]; auto. rewrite nan_lt_l by auto. apply IH.
Qed.
Lemma argbest_skip c l : forall i bi bv, bi <> c -> (forall j, j < length l -> i + j = c -> nnan (nth j l nzero) = true) ->
  fst (argbest (fun v m : B64 => nltb m v) l i bi bv) <> c.
Proof.
  induction l as [|y l IH]; intros i bi bv Hb H; cbn [argbest]; [exact Hb|].
  assert (H' : forall j, j < length l -> S i + j = c -> nnan (nth j l nzero) = true) by (intros j Hj E; apply (H (S j)); cbn; lia).
  destruct (nltb bv y) eqn:Ey; apply IH; auto. intros ->. pose proof (H 0 ltac:(cbn; lia) ltac:(lia)) as Hn. cbn [nth] in Hn. rewrite nan_lt_r in Ey by auto. discriminate.
Qed.
Lemma am_skip row c : 0 < c < length row -> nnan (nth c row nzero) = true -> am row <> c.
Proof.
  intros Hc H. destruct row as [|x l]; cbn [length] in *; [lia|]. unfold am, argmax. apply argbest_skip; [lia|]. intros j Hj E. subst c. exact H.
Qed.

Section Bayes.
  Context {Fn : NumFn B64}.
  Lemma predict_am {P} (D : @Distribution B64 P) (m : NaiveBayes B64 P) M lp k : get_log_probs D m M = Ok lp -> nb_cluster_count m = Some k -> 0 < k ->
    (forall row, In row (mrows lp) -> length row = k) -> nrows lp = nrows M ->
    nb_predict D m M = Ok (Mat (map (fun row => one_hot k (am row)) (mrows lp)) k).
  Proof.
    intros E Ek Hk HL Hn. unfold nb_predict. rewrite E. cbn [rbind]. unfold get_classes.
    rewrite (rmap_ok _ am).
    2:{ intros row Hr. destruct (argmax_am row) as (v & -> & _); [rewrite HL; auto|reflexivity]. }
    cbn [rbind]. rewrite Ek. rewrite (rmap_ok _ (one_hot k)).
    2:{ intros c Hc. apply in_map_iff in Hc. destruct Hc as (row & <- & Hr). unfold one_hot_row.
        destruct (argmax_am row) as (v & _ & L); [rewrite HL; auto|]. rewrite upd_onehot; auto. now rewrite <- (HL row Hr). }
    cbn [rbind]. rewrite !map_length. unfold nrows in Hn. rewrite Hn. unfold nrows. rewrite Nat.eqb_refl. cbn [rassert]. now rewrite map_map.
  Qed.

  (** A NaN in the query or in the parameters of the class makes the score NaN. *)
  Lemma gauss_score_nan pr th si x : length th = length x -> length si = length x -> has_nan x \/ has_nan th -> nnan (gauss_score pr th si x) = true.
  Proof.
    intros Lt Ls H. unfold gauss_score. apply nan_add. left. apply nan_add. left. apply nan_mul. left.
    assert (Q : forall v : B64, nnan v = true -> nnan (nopp v) = true) by (intros v; destruct v; auto; discriminate).
    apply Q. apply nan_vsum. destruct (sub_nan x th ltac:(lia) H) as (j & Lj & Hj).
    assert (Lv : length (vsub x th) = length x) by (unfold vsub; rewrite map2_length; lia).
    eexists. split; [apply (map2_in ndiv _ _ j nzero nzero); rewrite ?map_length; lia|]. apply nan_div. left.
    rewrite (nth_indep _ nzero ((fun d => nmul d d) nzero)) by (rewrite map_length; lia). rewrite (map_nth (fun d => nmul d d)).
    apply nan_mul. left. unfold vsub. rewrite map2_nth with (da := nzero) (db := nzero) by lia. exact Hj.
  Qed.
  Lemma dot_nan (x y : list B64) : length x = length y -> has_nan x \/ has_nan y -> nnan (dot x y) = true.
  Proof.
    intros L H. unfold dot. apply nan_vsum. destruct H as [(j & Lj & H)|(j & Lj & H)]; (eexists; split; [apply (map2_in nmul x y j nzero nzero); lia|]); apply nan_mul; auto.
  Qed.
  Lemma multi_score_nan pr lp x : length lp = length x -> has_nan x \/ has_nan lp -> nnan (multinomial_score pr lp x) = true.
  Proof. intros L H. unfold multinomial_score. apply nan_add. left. apply dot_nan; auto. Qed.
  Lemma bern_score_nan pr lp x : length lp = length x -> has_nan x \/ has_nan lp -> nnan (bernoulli_score pr lp x) = true.
  Proof.
    intros L H. unfold bernoulli_score. apply nan_add. left.
    assert (Ln : length (map (fun l => nln (nsub nonev (nexp l))) lp) = length lp) by apply map_length.
    apply dot_nan; [unfold vsub; rewrite map2_length; lia|]. destruct H as [H|(j & Lj & H)]; [now left|right].
    exists j. unfold vsub. rewrite map2_length, Ln. split; [lia|]. rewrite map2_nth with (da := nzero) (db := nzero) by lia. apply nan_sub. now left.
  Qed.

  (** Class [c] of the training rows contains a row with NaN. *)
  Lemma class_nan (inputs : matrix B64) cs t c : mwf inputs -> length cs = nrows inputs -> t < nrows inputs -> nth t cs 0 = c -> has_nan (nth t (mrows inputs) []) ->
    exists j ids, class_rows cs c = ids /\ ids <> [] /\ j < mcols inputs /\ nnan (vsum (col (sel inputs ids) j)) = true.
  Proof.
    intros W L Ht Hc (j & Lj & Hj). rewrite row_len in Lj by auto.
    assert (I : In t (class_rows cs c)).
    { apply filter_In. split; [apply in_seq; lia|]. apply Nat.eqb_eq. rewrite <- Hc. apply nth_indep. lia. }
    exists j, (class_rows cs c). split; auto. split; [intros E; rewrite E in I; destruct I|]. split; auto.
    apply nan_vsum. exists (nth j (nth t (mrows inputs) []) nzero). split; auto. unfold col, sel. cbn [mrows]. rewrite map_map. apply in_map_iff. exists t. split; auto.
  Qed.
  Lemma mean_nan inputs cs t c : mwf inputs -> length cs = nrows inputs -> t < nrows inputs -> nth t cs 0 = c -> has_nan (nth t (mrows inputs) []) ->
    has_nan (trained_row inputs cs col_mean (mcols inputs) c).
  Proof.
    intros W L Ht Hc H. destruct (class_nan inputs cs t c W L Ht Hc H) as (j & ids & E & Ne & Lj & Hj). unfold trained_row. rewrite E. destruct ids as [|i ids]; [congruence|].
    exists j. unfold col_mean. cbn [mcols sel]. rewrite map_length, seq_length. split; auto.
    match goal with |- nnan (nth j (map ?h _) _) = true => rewrite (nth_indep _ nzero (h 0)) by (rewrite map_length, seq_length; exact Lj); rewrite (map_nth h), seq_nth by exact Lj end.
    cbn [Nat.add]. apply nan_div. now left.
  Qed.
  Lemma smooth_nan (g : matrix B64 -> B64) inputs cs t c : ln_nan -> mwf inputs -> length cs = nrows inputs -> t < nrows inputs -> nth t cs 0 = c -> has_nan (nth t (mrows inputs) []) ->
    has_nan (trained_row inputs cs (fun data => map (fun f => nsub (nln f) (nln (g data))) (map (fun s => nadd s nonev) (col_sums data))) (mcols inputs) c).
  Proof.
    intros Hln W L Ht Hc H. destruct (class_nan inputs cs t c W L Ht Hc H) as (j & ids & E & Ne & Lj & Hj). unfold trained_row. rewrite E. destruct ids as [|i ids]; [congruence|].
    exists j. unfold col_sums. cbn [mcols sel]. rewrite !map_length, seq_length. split; auto. rewrite !map_map.
    match goal with |- nnan (nth j (map ?h _) _) = true => rewrite (nth_indep _ nzero (h 0)) by (rewrite map_length, seq_length; exact Lj); rewrite (map_nth h), seq_nth by exact Lj end.
    cbn [Nat.add]. apply nan_sub. left. apply Hln, nan_add. now left.
  Qed.
  Lemma trained_len (inputs : matrix B64) cs f w c : (forall m, mcols m = w -> length (f m) = w) -> mcols inputs = w -> length (trained_row inputs cs f w c) = w.
  Proof. intros H E. unfold trained_row. destruct (class_rows cs c); [apply repeat_length|]. apply H. exact E. Qed.

  (** What the answers of a model look like, given the scores. *)
  Definition nan_effect (k : nat) (sc : nat -> list B64 -> B64) (M out : matrix B64) : Prop :=
    nrows out = nrows M /\ forall i, i < nrows M -> nth i (mrows out) [] = one_hot k (am (map (fun c => sc c (nth i (mrows M) [])) (seq 0 k))).
  Lemma scores_effect {P} (D : @Distribution B64 P) (m : NaiveBayes B64 P) M k sc : 0 < k -> nb_cluster_count m = Some k ->
    get_log_probs D m M = Ok (Mat (map (fun x => map (fun i => sc i x) (seq 0 k)) (mrows M)) k) ->
    exists out, nb_predict D m M = Ok out /\ nan_effect k sc M out.
  Proof.
    intros Hk Ek E. eexists. split; [apply (predict_am D m M _ k E Ek Hk)|].
    - intros row Hr. apply in_map_iff in Hr. destruct Hr as (x & <- & _). now rewrite map_length, seq_length.
    - unfold nrows. cbn [mrows]. apply map_length.
    - split; [unfold nrows; cbn [mrows]; now rewrite !map_length|]. intros i Hi. cbn [mrows]. rewrite map_map.
      match goal with |- nth i (map ?h _) _ = _ => rewrite (nth_indep _ [] (h [])) by (rewrite map_length; exact Hi); rewrite (map_nth h) end. reflexivity.
  Qed.
  (** From NaN scores to answers. *)
  Lemma effect_query k sc M out i : 0 < k -> nan_effect k sc M out -> i < nrows M -> nnan (sc 0 (nth i (mrows M) [])) = true -> nth i (mrows out) [] = one_hot k 0.
  Proof. intros Hk (_ & H) Hi Hn. rewrite H by auto. destruct k; [lia|]. cbn [seq map]. now rewrite am_stuck. Qed.
  Lemma effect_class k sc M out i c : 0 < c < k -> nan_effect k sc M out -> i < nrows M -> nnan (sc c (nth i (mrows M) [])) = true ->
    exists c', c' < k /\ c' <> c /\ nth i (mrows out) [] = one_hot k c'.
  Proof.
    intros Hk (_ & H) Hi Hn. rewrite H by auto. eexists. split; [|split; [|reflexivity]].
    - destruct (argmax_am (map (fun c => sc c (nth i (mrows M) [])) (seq 0 k))) as (v & _ & L); rewrite map_length, seq_length in *; lia.
    - apply am_skip; [rewrite map_length, seq_length; lia|].
      match goal with |- nnan (nth c (map ?h _) _) = true => rewrite (nth_indep _ nzero (h 0)) by (rewrite map_length, seq_length; lia); rewrite (map_nth h), seq_nth by lia end. exact Hn.
  Qed.

  Lemma outcome_of {P} (D : @Distribution B64 P) (m' : NaiveBayes B64 P) k inputs cs sc : 0 < k -> nb_cluster_count m' = Some k ->
    Forall (fun c => c < k) cs -> length cs = nrows inputs ->
    (forall M, mwf M -> mcols M = mcols inputs -> get_log_probs D m' M = Ok (Mat (map (fun x => map (fun i => sc i x) (seq 0 k)) (mrows M)) k)) ->
    (forall c x, c < k -> length x = mcols inputs -> has_nan x -> nnan (sc c x) = true) ->
    (forall t x, t < nrows inputs -> has_nan (nth t (mrows inputs) []) -> length x = mcols inputs -> nnan (sc (nth t cs 0) x) = true) ->
    nan_outcome D m' k inputs cs.
  Proof.
    intros Hk Ek Fc Lc E Hq Ht M W Em. destruct (scores_effect D m' M k sc Hk Ek (E M W Em)) as (out & P1 & P2). exists out. split; auto. split; [apply P2|].
    intros i Hi. assert (Lx : length (nth i (mrows M) []) = mcols inputs) by (rewrite row_len by auto; auto).
    split; [intros H; apply (effect_query k sc M out i); auto|]. intros t Lt H. split.
    - intros C0. apply (effect_query k sc M out i); auto. rewrite <- C0. apply Ht; auto.
    - intros Cp. rewrite Forall_forall in Fc. assert (Ck : nth t cs 0 < k) by (apply Fc, nth_In; lia). apply (effect_class k sc M out i); auto.
  Qed.

  Lemma nth_map_seq {A} (f : nat -> A) k c d : c < k -> nth c (map f (seq 0 k)) d = f c.
  Proof. intros H. rewrite (nth_indep _ d (f 0)) by (rewrite map_length, seq_length; exact H). rewrite map_nth, seq_nth by exact H. reflexivity. Qed.
  Lemma labels_pos (targets inputs : matrix B64) cs : nrows targets = nrows inputs -> Forall (fun c => c < mcols targets) cs -> length cs = nrows targets -> 0 < nrows inputs -> 0 < mcols targets.
  Proof. intros A H L P. destruct cs as [|c cs]; cbn in L; [lia|]. inversion H. lia. Qed.

  Theorem gauss_nan (m : NaiveBayes B64 (Gauss B64)) inputs targets cs : mwf inputs -> mwf targets -> nrows targets = nrows inputs -> 0 < nrows inputs -> labelled targets cs ->
    (forall c, In c cs -> 2 <= length (class_rows cs c)) ->
    exists m', nb_train Gaussian m inputs targets = (m', Ok tt) /\ nan_outcome Gaussian m' (mcols targets) inputs cs.
  Proof.
    intros Wi W L Pn Hl H2. destruct (labels_lt _ _ W Hl) as [Fc Lc]. pose proof (labels_pos _ _ _ L Fc Lc Pn) as Kp.
    destruct (gauss_nb_train m inputs targets cs W L Hl H2) as (m' & p & E & Ek & Ep & Ed & Eth & Esi). exists m'. split; [exact E|].
    set (k := mcols targets) in *. set (th := trained_row inputs cs col_mean (mcols inputs)) in *. set (si := trained_row inputs cs col_var (mcols inputs)) in *.
    assert (Lth : forall c, length (th c) = mcols inputs) by (intros c; unfold th; apply trained_len; auto; intros q <-; unfold col_mean; now rewrite map_length, seq_length).
    assert (Lsi : forall c, length (si c) = mcols inputs) by (intros c; unfold si; apply trained_len; auto; intros q <-; unfold col_var; now rewrite map_length, seq_length).
    apply (outcome_of Gaussian m' k inputs cs (fun c x => gauss_score (nth c (priors_of inputs k cs) nzero) (th c) (si c) x)); auto; [lia| | |].
    - intros M Wm Em. unfold get_log_probs. rewrite Ed, Ep. cbn [d_joint Gaussian]. unfold gauss_joint. rewrite Eth, Esi.
      assert (Lp : length (priors_of inputs k cs) = k) by (unfold priors_of; now rewrite map_length, seq_length).
      unfold nrows. cbn [mrows mcols]. rewrite Lp, !map_length, !seq_length, Nat.leb_refl, Em, Nat.eqb_refl, orb_true_r. cbn [andb rassert].
      do 2 f_equal. apply map_ext_in. intros x _. apply map_ext_in. intros c Hc. apply in_seq in Hc. now rewrite !nth_map_seq by lia.
    - intros c x Hc Lx H. apply gauss_score_nan; [now rewrite Lth|now rewrite Lsi|now left].
    - intros t x Lt H Lx. apply gauss_score_nan; [now rewrite Lth|now rewrite Lsi|right]. apply (mean_nan inputs cs t); auto. lia.
  Qed.
  Lemma smooth_nan_train score (g : matrix B64 -> B64) upd0 (m : NaiveBayes B64 (Smooth B64)) inputs targets cs :
    ln_nan -> (forall p d c, upd0 p d c = smooth_set p c (map (fun f => nsub (nln f) (nln (g d))) (map (fun s => nadd s nonev) (col_sums d)))) ->
    (forall pr lp x, length lp = length x -> has_nan x \/ has_nan lp -> nnan (score pr lp x) = true) ->
    mwf inputs -> mwf targets -> nrows targets = nrows inputs -> 0 < nrows inputs -> labelled targets cs ->
    let D := {| d_new := fun a b => {| s_log_probs := mzeros a b |}; d_update := upd0; d_joint := smooth_joint score |} in
    exists m', nb_train D m inputs targets = (m', Ok tt) /\ nan_outcome D m' (mcols targets) inputs cs.
  Proof.
    intros Hln HU Hs Wi W L Pn Hl D. destruct (labels_lt _ _ W Hl) as [Fc Lc]. pose proof (labels_pos _ _ _ L Fc Lc Pn) as Kp.
    destruct (smooth_nb_train upd0 (smooth_joint score) _ m inputs targets cs HU W L Hl) as (m' & p & E & Ek & Ep & Ed & El). exists m'. split; [exact E|].
    set (k := mcols targets) in *.
    set (lp := trained_row inputs cs (fun d => map (fun f => nsub (nln f) (nln (g d))) (map (fun s => nadd s nonev) (col_sums d))) (mcols inputs)) in *.
    assert (Ll : forall c, length (lp c) = mcols inputs) by (intros c; unfold lp; apply trained_len; auto; intros q <-; unfold col_sums; now rewrite !map_length, seq_length).
    apply (outcome_of D m' k inputs cs (fun c x => score (nth c (priors_of inputs k cs) nzero) (lp c) x)); auto; [lia| | |].
    - intros M Wm Em. unfold get_log_probs. rewrite Ed, Ep. cbn [d_joint D]. unfold smooth_joint. rewrite El.
      assert (Lp : length (priors_of inputs k cs) = k) by (unfold priors_of; now rewrite map_length, seq_length).
      unfold nrows. cbn [mrows mcols]. rewrite Lp, !map_length, !seq_length, Em, !Nat.eqb_refl. cbn [andb rassert].
      do 2 f_equal. apply map_ext_in. intros x _. apply map_ext_in. intros c Hc. apply in_seq in Hc. now rewrite !nth_map_seq by lia.
    - intros c x Hc Lx H. apply Hs; [now rewrite Ll|now left].
    - intros t x Lt H Lx. apply Hs; [now rewrite Ll|right]. apply (smooth_nan g inputs cs t); auto. lia.
  Qed.
  Theorem bernoulli_nan (m : NaiveBayes B64 (Smooth B64)) inputs targets cs : ln_nan -> mwf inputs -> mwf targets -> nrows targets = nrows inputs -> 0 < nrows inputs -> labelled targets cs ->
    exists m', nb_train Bernoulli m inputs targets = (m', Ok tt) /\ nan_outcome Bernoulli m' (mcols targets) inputs cs.
  Proof.
    intros Hln. apply (smooth_nan_train bernoulli_score (fun d => nadd (nofnat (nrows d)) (nmul two nonev)) bernoulli_update); auto. apply bern_score_nan.
  Qed.
  Theorem multinomial_nan (m : NaiveBayes B64 (Smooth B64)) inputs targets cs : ln_nan -> mwf inputs -> mwf targets -> nrows targets = nrows inputs -> 0 < nrows inputs -> labelled targets cs ->
    exists m', nb_train Multinomial m inputs targets = (m', Ok tt) /\ nan_outcome Multinomial m' (mcols targets) inputs cs.
  Proof.
    intros Hln. apply (smooth_nan_train multinomial_score (fun d => vsum (map (fun s => nadd s nonev) (col_sums d))) multinomial_update); auto. apply multi_score_nan.
  Qed.
End Bayes.
