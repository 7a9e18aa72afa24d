(** * Training does not depend on the order of the rows: generalised linear models, confusion matrices *)
From Coq Require Import List Arith Lia Bool Permutation Reals Lra Sorted.
From Verif Require Import Base BaseLemmas Num NumX NumFn Linalg LinalgR Spec_Calc CalcR MatR Model_Optim Model_Regression Model_GLM
  Model_Confusion Spec_Confusion Proof_Confusion Spec_Order Proof_KMeans Proof_GLM Proof_Order Proof_Order2.
Import ListNotations.

(** ** Generalised linear models *)

(** The criterion treats every sample alike. *)
Definition per_sample (cr : Criterion R) : Prop :=
  exists (mu0 : R -> R) (ww : R -> R) (yb : R -> R -> R),
    (forall y, cr_initialize_mu cr y = map mu0 y) /\ (forall mu, cr_working_weight cr mu = Ok (map ww mu)) /\
    (forall y mu, cr_y_bar cr y mu = map2 yb y mu).
Lemma per_sample_bernoulli : per_sample Bernoulli.
Proof. eexists _, _, _. repeat split. Qed.
Lemma per_sample_poisson : per_sample Poisson.
Proof. eexists _, (fun m => m), _. repeat split. intros mu. cbn. now rewrite map_id. Qed.
Lemma per_sample_normal : per_sample Normal.
Proof. eexists (fun y => y), _, _. repeat split. intros y. cbn. unfold default_mu. now rewrite map_id. Qed.

Lemma map_nth_seq {B C} (h : B -> C) (l : list B) d : map (fun i => h (nth i l d)) (seq 0 (length l)) = map h l.
Proof.
  assert (Q : forall pre, map (fun i => h (nth i (pre ++ l) d)) (seq (length pre) (length l)) = map h l).
  { induction l as [|b l IH]; intros pre; cbn [length seq map]; auto. f_equal.
    - now rewrite nth_middle.
    - specialize (IH (pre ++ [b])). rewrite app_length, <- app_assoc in IH. cbn [length app] in IH. rewrite Nat.add_1_r in IH. exact IH. }
  exact (Q []).
Qed.
Lemma diag_col {B} (f : B -> R) (wf : B -> R) l i d : i < length l ->
  dot (map f l) (col (from_diag (map wf l)) i) = (f (nth i l d) * wf (nth i l d))%R.
Proof.
  intros Hi. rewrite (dot_sumR (length l)).
  2:{ now rewrite map_length. } 2:{ rewrite col_length, from_diag_nrows. now rewrite map_length. }
  rewrite (sumR_single (length l) _ i Hi).
  - rewrite (nth_map f _ _ _ d) by auto. rewrite col_nth by (rewrite from_diag_nrows; now rewrite map_length).
    rewrite from_diag_entry by (now rewrite map_length). rewrite Nat.eqb_refl, (nth_map wf _ _ _ d) by auto. reflexivity.
  - intros j Hj NE. rewrite col_nth by (rewrite from_diag_nrows; now rewrite map_length). rewrite from_diag_entry by (now rewrite map_length).
    destruct (Nat.eqb_spec j i); [contradiction|]. ring.
Qed.
Lemma xtw_map {B} (f : B -> list R) (wf : B -> R) l w :
  mat_mul (transpose (Mat (map f l) w)) (from_diag (map wf l)) =
  Mat (map (fun j => map (fun p => (nth j (f p) 0 * wf p)%R) l) (seq 0 w)) (length l).
Proof.
  unfold mat_mul, transpose. cbn [mrows mcols from_diag]. rewrite !map_length. f_equal. rewrite map_map. apply map_ext. intros j.
  rewrite col_map. destruct l as [|b l]; [reflexivity|]. rewrite <- (map_nth_seq (fun p => (nth j (f p) 0 * wf p)%R) (b :: l) b). apply map_ext_in. intros i Hi. apply in_seq in Hi.
  apply (diag_col (fun p => nth j (f p) 0%R) wf (b :: l) i b). lia.
Qed.
Lemma wgram_perm {B} (f : B -> list R) (wf : B -> R) l l' w : Permutation l l' ->
  mat_mul (mat_mul (transpose (Mat (map f l) w)) (from_diag (map wf l))) (Mat (map f l) w) =
  mat_mul (mat_mul (transpose (Mat (map f l') w)) (from_diag (map wf l'))) (Mat (map f l') w).
Proof.
  intros P. rewrite !xtw_map. unfold mat_mul. cbn [mrows mcols]. f_equal. rewrite !map_map. apply map_ext. intros i. apply map_ext. intros j.
  rewrite !col_map. now apply (dot_perm (fun p => (nth i (f p) 0 * wf p)%R)).
Qed.
Lemma wsolve_perm {B} (inv : matrix R) (f : B -> list R) (wf z : B -> R) l l' w : Permutation l l' ->
  mat_vec (mat_mul inv (mat_mul (transpose (Mat (map f l) w)) (from_diag (map wf l)))) (map z l) =
  mat_vec (mat_mul inv (mat_mul (transpose (Mat (map f l') w)) (from_diag (map wf l')))) (map z l').
Proof.
  intros P. rewrite !xtw_map. unfold mat_vec, mat_mul. cbn [mrows mcols]. rewrite !map_map. apply map_ext. intros r.
  assert (Q : forall l0 : list B, map (fun j => dot r (col (Mat (map (fun j0 => map (fun p => (nth j0 (f p) 0 * wf p)%R) l0) (seq 0 w)) (length l0)) j)) (seq 0 (length l0)) =
    map (fun p => dot r (map (fun j => (nth j (f p) 0 * wf p)%R) (seq 0 w))) l0).
  { intros l0. destruct l0 as [|b l0]; [reflexivity|]. rewrite <- (map_nth_seq (fun p => dot r (map (fun j => (nth j (f p) 0 * wf p)%R) (seq 0 w))) (b :: l0) b). apply map_ext_in. intros i Hi. apply in_seq in Hi. f_equal.
    unfold col. cbn [mrows]. rewrite map_map. apply map_ext. intros j. cbn [nzero NumR]. now rewrite (nth_map _ _ _ _ b) by lia. }
  rewrite !Q. now apply dot_perm.
Qed.

Section GLM.
  Variable cr : Criterion R.
  Variables (mu0 ww : R -> R) (yb : R -> R -> R).
  Hypothesis H0 : forall y, cr_initialize_mu cr y = map mu0 y.
  Hypothesis H1 : forall mu, cr_working_weight cr mu = Ok (map ww mu).
  Hypothesis H2 : forall y mu, cr_y_bar cr y mu = map2 yb y mu.
  Variable inverse : matrix R -> option (matrix R).
  Notation sample := (list R * R)%type.
  Lemma glm_loop_order w (l l' : list sample) : Permutation l l' -> forall fuel (mu z : sample -> R) beta,
    glm_loop fuel inverse cr (with_ones (rows_of w l)) (targets_of l) (map mu l) (map z l) beta =
    glm_loop fuel inverse cr (with_ones (rows_of w l')) (targets_of l') (map mu l') (map z l') beta.
  Proof.
    intros P. unfold rows_of, targets_of. rewrite !with_ones_map. set (f := fun p : sample => @nonev R NumR :: fst p).
    induction fuel as [|n IH]; intros mu z beta; cbn [glm_loop]; auto.
    unfold glm_pass. rewrite !H1. cbn [rbind]. rewrite !H2, !map_map, !map2_maps.
    rewrite (wgram_perm f (fun p => ww (mu p)) l l' (S w) P).
    destruct (inverse _) as [inv|]; auto. cbn [rbind]. rewrite (wsolve_perm inv f (fun p => ww (mu p)) z l l' (S w) P).
    match goal with |- context [mat_vec (mat_mul inv ?x) ?y] => set (nb := mat_vec (mat_mul inv x) y) end.
    destruct (nltb _ _); auto. unfold mat_vec, vadd. cbn [mrows]. rewrite !map_map, !map2_maps. 
    apply (IH (fun p => lk_inv (cr_link cr) (dot (f p) nb)) (fun p => nadd (yb (snd p) (mu p)) (dot (f p) nb)) nb).
  Qed.
End GLM.
Theorem glm_train_order (cr : Criterion R) inverse self w (l l' : list (list R * R)) : per_sample cr -> Permutation l l' ->
  glm_train inverse cr self (rows_of w l) (targets_of l) = glm_train inverse cr self (rows_of w l') (targets_of l').
Proof.
  intros (mu0 & ww & yb & H0 & H1 & H2) P. unfold glm_train. rewrite !H0.
  assert (EL : forall q : list (list R * R), (nrows (rows_of w q) =? length (targets_of q)) = true).
  { intros q. unfold nrows, rows_of, targets_of. cbn [mrows]. now rewrite !map_length, Nat.eqb_refl. }
  rewrite !EL. cbn [negb].
  change (mcols (rows_of w l)) with w. change (mcols (rows_of w l')) with w.
  assert (E : forall q : list (list R * R), map mu0 (targets_of q) = map (fun p => mu0 (snd p)) q) by (intros; unfold targets_of; now rewrite map_map).
  rewrite !E. now rewrite (glm_loop_order cr ww yb H1 H2 inverse w l l' P).
Qed.

(** ** Confusion matrix *)
Lemma samples_order {T} (eqb : T -> T -> bool) t p (l l' : list (T * T)) : Permutation l l' ->
  samples eqb t p (map snd l) (map fst l) = samples eqb t p (map snd l') (map fst l').
Proof. induction 1 as [|[a b] l l' P IH|[a b] [c d] l|l l' l'' P1 IH1 P2 IH2]; cbn; lia. Qed.
Lemma ascending_unique {T} (leb : T -> T -> bool) : total_order leb -> forall l l', ascending leb l -> ascending leb l' ->
  (forall x, In x l <-> In x l') -> l = l'.
Proof.
  intros (_ & An & _). induction l as [|x l IH]; intros l' S S' H.
  - destruct l' as [|y l']; auto. destruct (proj2 (H y)). now left.
  - destruct l' as [|y l']; [destruct (proj1 (H x)); now left|].
    inversion S as [|? ? S1 F1]; subst. inversion S' as [|? ? S2 F2]; subst. rewrite Forall_forall in F1, F2.
    assert (E : x = y).
    { destruct (proj1 (H x) (or_introl eq_refl)) as [E|Hx]; auto. destruct (proj2 (H y) (or_introl eq_refl)) as [E|Hy]; auto.
      destruct (F1 y Hy) as [L1 _]. destruct (F2 x Hx) as [L2 _]. apply An; auto. }
    subst y. f_equal. apply IH; auto. intros z. split; intros Hz.
    + destruct (proj1 (H z) (or_intror Hz)) as [E|]; auto. subst. destruct (F1 z Hz) as [_ N]. now contradiction N.
    + destruct (proj2 (H z) (or_intror Hz)) as [E|]; auto. subst. destruct (F2 z Hz) as [_ N]. now contradiction N.
Qed.
Lemma tabulates_unique {T} (eqb : T -> T -> bool) ls ts ps ts' ps' m m' : tabulates eqb ls ts ps m -> tabulates eqb ls ts' ps' m' ->
  (forall t p, samples eqb t p ts ps = samples eqb t p ts' ps') -> m = m'.
Proof.
  intros ((L & Q) & E) ((L' & Q') & E') H. apply (nth_ext _ _ [] []); [congruence|]. intros i Hi.
  assert (R1 : In (nth i m []) m) by (now apply nth_In). assert (R2 : In (nth i m' []) m') by (apply nth_In; congruence).
  apply (nth_ext _ _ 0 0); [rewrite (Q _ R1), (Q' _ R2); auto|]. intros j Hj. rewrite (Q _ R1) in Hj.
  destruct (nth_error ls i) as [t|] eqn:Et; [|apply nth_error_None in Et; lia].
  destruct (nth_error ls j) as [p|] eqn:Ep; [|apply nth_error_None in Ep; lia].
  specialize (E i j t p Et Ep). specialize (E' i j t p Et Ep). rewrite H in E. rewrite <- E' in E. unfold Spec_Confusion.entry in E.
  rewrite (nth_error_nth' m []), (nth_error_nth' m' []) in E by lia.
  rewrite !(nth_error_nth' _ 0) in E by (rewrite ?(Q _ R1), ?(Q' _ R2); lia). now injection E.
Qed.
Theorem confusion_order {T} (leb eqb : T -> T -> bool) : decides_eq eqb -> total_order leb -> forall l l' : list (T * T), Permutation l l' ->
  confusion_matrix leb eqb (map fst l) (map snd l) None = confusion_matrix leb eqb (map fst l') (map snd l') None.
Proof.
  intros DE TO l l' P.
  destruct (proj2 (without_labels leb eqb DE TO (map fst l) (map snd l))) as (ls & m & Em & As & In1 & Tb & _); [now rewrite !map_length|].
  destruct (proj2 (without_labels leb eqb DE TO (map fst l') (map snd l'))) as (ls' & m' & Em' & As' & In1' & Tb' & _); [now rewrite !map_length|].
  rewrite Em, Em'. f_equal.
  assert (E : ls = ls').
  { apply (ascending_unique leb TO); auto. intros x. rewrite In1, In1'.
    split; (intros [H|H]; [left|right]; eapply Permutation_in; [|exact H| |exact H]); apply Permutation_map; auto; now apply Permutation_sym. }
  subst ls'. eapply tabulates_unique; eauto. intros t p. now apply samples_order.
Qed.

(** ** The statements for the crate's own criteria and distributions *)
Theorem glm_three_order (cr : Criterion R) : cr = Bernoulli \/ cr = Poisson \/ cr = Normal ->
  forall inverse self w (l l' : list (list R * R)), Permutation l l' ->
  glm_train inverse cr self (rows_of w l) (targets_of l) = glm_train inverse cr self (rows_of w l') (targets_of l').
Proof.
  intros H inverse self w l l'. apply glm_train_order.
  destruct H as [-> |[-> | ->]]; [apply per_sample_bernoulli|apply per_sample_poisson|apply per_sample_normal].
Qed.
From Verif Require Import Model_NaiveBayes Model_Score NumF.
Theorem nb_three_order : forall w k (l l' : list (list X * list X)), Permutation l l' ->
  (forall m, snd (nb_train Gaussian m (rows_of w l) (target_rows k l)) = snd (nb_train Gaussian m (rows_of w l') (target_rows k l')) /\
     (snd (nb_train Gaussian m (rows_of w l) (target_rows k l)) = Ok tt ->
      nb_train Gaussian m (rows_of w l) (target_rows k l) = nb_train Gaussian m (rows_of w l') (target_rows k l'))) /\
  (forall m, snd (nb_train Model_NaiveBayes.Bernoulli m (rows_of w l) (target_rows k l)) = snd (nb_train Model_NaiveBayes.Bernoulli m (rows_of w l') (target_rows k l')) /\
     (snd (nb_train Model_NaiveBayes.Bernoulli m (rows_of w l) (target_rows k l)) = Ok tt ->
      nb_train Model_NaiveBayes.Bernoulli m (rows_of w l) (target_rows k l) = nb_train Model_NaiveBayes.Bernoulli m (rows_of w l') (target_rows k l'))) /\
  (forall m, snd (nb_train Multinomial m (rows_of w l) (target_rows k l)) = snd (nb_train Multinomial m (rows_of w l') (target_rows k l')) /\
     (snd (nb_train Multinomial m (rows_of w l) (target_rows k l)) = Ok tt ->
      nb_train Multinomial m (rows_of w l) (target_rows k l) = nb_train Multinomial m (rows_of w l') (target_rows k l'))).
Proof.
  intros w k l l' P. split; [|split]; intros m; apply nb_train_order; auto; intros; cbn [d_update Gaussian Model_NaiveBayes.Bernoulli Multinomial].
  - now apply gauss_upd_order. - now apply bern_upd_order. - now apply multi_upd_order.
Qed.
Theorem scores_order (T : Type) (leb eqb : T -> T -> bool) (l l' : list (T * T)) : Permutation l l' ->
  accuracy (F := B64) eqb (map fst l) (map snd l) = accuracy eqb (map fst l') (map snd l') /\
  (decides_eq eqb -> total_order leb -> confusion_matrix leb eqb (map fst l) (map snd l) None = confusion_matrix leb eqb (map fst l') (map snd l') None).
Proof. intros P. split; [now apply accuracy_order|]. intros D O. now apply confusion_order. Qed.
