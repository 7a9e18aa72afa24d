(** * Naive Bayes: units, order and coding of the features; names of the classes *)
From Coq Require Import List Arith Lia Bool Reals Lra Permutation.
From Verif Require Import Base BaseLemmas Num NumFn NumOrd Linalg LinalgR Spec_Calc Model_KMeans Proof_KMeans Model_NaiveBayes Spec_NaiveBayes
  Proof_NaiveBayes Proof_NaiveBayes2 Proof_NaiveBayesMAP Spec_NBInv.
From Verif Require Proof_Equiv.
Import ListNotations.
Local Open Scope R_scope.

(** ** The best class *)
Lemma ltb_R (a b : R) : nltb a b = true <-> a < b.
Proof. cbn. destruct (Rlt_dec a b); split; intros; auto; discriminate. Qed.
Lemma ltb_R_false (a b : R) : nltb a b = false <-> b <= a.
Proof. cbn. destruct (Rlt_dec a b); split; intros; auto; try discriminate; try lra. Qed.
Lemma best_unique k (s : nat -> R) c d : is_best k s c -> is_best k s d -> c = d.
Proof.
  intros (A1 & A2 & A3) (B1 & B2 & B3). destruct (lt_eq_lt_dec c d) as [[Q|Q]|Q]; auto; exfalso.
  - apply B3, ltb_R in Q. specialize (A2 d B1). apply ltb_R_false in A2. lra.
  - apply A3, ltb_R in Q. specialize (B2 c A1). apply ltb_R_false in B2. lra.
Qed.
Lemma best_shift k (s t : nat -> R) z c : (forall d, (d < k)%nat -> t d = s d + z) -> is_best k t c -> is_best k s c.
Proof.
  intros E (A1 & A2 & A3). split; auto. split.
  - intros i Hi. specialize (A2 i Hi). apply ltb_R_false in A2. apply ltb_R_false. rewrite !E in A2 by auto. lra.
  - intros i Hi. specialize (A3 i Hi). apply ltb_R in A3. apply ltb_R. rewrite !E in A3 by lia. lra.
Qed.
Lemma only_best_best k s c d : only_best k s c -> is_best k s d -> d = c.
Proof.
  intros (A1 & A2) (B1 & B2 & B3). destruct (Nat.eq_dec d c) as [|Q]; auto. exfalso. specialize (A2 d B1 Q). specialize (B2 c A1).
  apply ltb_R_false in B2. lra.
Qed.

(** ** Outputs *)
Lemma predict_shape {P} (D : @Distribution R P) m M out k : nb_predict D m M = Ok out -> nb_cluster_count m = Some k -> mcols out = k.
Proof.
  unfold nb_predict. intros H K. rewrite K in H. destruct (get_log_probs D m M) as [lp| |]; try discriminate. cbn [rbind] in H.
  destruct (get_classes lp) as [cs| |]; try discriminate. cbn [rbind] in H. destruct (rmap (one_hot_row k) cs) as [rows| |]; try discriminate. cbn [rbind] in H.
  unfold rassert in H. destruct (length rows =? nrows M)%nat; [|discriminate]. inversion H. reflexivity.
Qed.
Lemma train_count {P} (D : @Distribution R P) m A t m' : nb_train D m A t = (m', Ok tt) -> nb_cluster_count m' = Some (mcols t).
Proof.
  unfold nb_train. destruct (find_classes (mrows t)) as [cs [[]| |]]; try discriminate.
  destruct (update_classes D A cs (seq 0 (mcols t)) _) as [p' [[]| |]]; try discriminate. intros H. inversion H. reflexivity.
Qed.
Lemma rows_ext (A B : matrix R) : mcols A = mcols B -> nrows A = nrows B -> (forall i, (i < nrows A)%nat -> nth i (mrows A) [] = nth i (mrows B) []) -> A = B.
Proof.
  destruct A as [ra ca], B as [rb cb]. unfold nrows. cbn. intros -> L H. f_equal. apply (nth_ext _ _ [] []); auto.
Qed.

(** What the three maximum-posterior theorems have in common. *)
Definition maps {P} (D : @Distribution R P) (ll : nat -> list R -> R) (A T M : matrix R) : Prop := forall m : NaiveBayes R P,
  exists m' out, nb_train D m A T = (m', Ok tt) /\ nb_predict D m' M = Ok out /\ nrows out = nrows M /\
    forall i, (i < nrows M)%nat -> exists c, nth i (mrows out) [] = one_hot (mcols T) c /\ is_best (mcols T) (fun c => ll c (nth i (mrows M) [])) c.

Lemma maps_same {P} (D : @Distribution R P) ll ll' A A' T M M' : maps D ll A T M -> maps D ll' A' T M' -> nrows M' = nrows M ->
  (forall i, (i < nrows M)%nat -> exists z, forall c, (c < mcols T)%nat -> ll' c (nth i (mrows M') []) = ll c (nth i (mrows M) []) + z) ->
  forall m1 m2, exists out, answers D m1 A T M out /\ answers D m2 A' T M' out.
Proof.
  intros H H' L E m1 m2. destruct (H m1) as (m1' & o1 & A1 & A2 & A3 & A4). destruct (H' m2) as (m2' & o2 & B1 & B2 & B3 & B4).
  exists o1. split; [exists m1'; auto|]. exists m2'. split; auto. replace o1 with o2; [exact B2|]. symmetry. apply rows_ext.
  - now rewrite (predict_shape _ _ _ _ _ A2 (train_count _ _ _ _ _ A1)), (predict_shape _ _ _ _ _ B2 (train_count _ _ _ _ _ B1)).
  - lia.
  - intros i Hi. destruct (A4 i ltac:(lia)) as (c & C1 & C2). destruct (B4 i ltac:(lia)) as (d & D1 & D2). rewrite C1, D1. f_equal.
    destruct (E i ltac:(lia)) as (z & Hz). exact (best_unique _ _ _ _ C2 (best_shift _ _ _ z _ Hz D2)).
Qed.
Lemma maps_renamed {P} (D : @Distribution R P) ll ll' A T T' M (sg : nat -> nat) : maps D ll A T M -> maps D ll' A T' M -> mcols T' = mcols T ->
  (forall c, (c < mcols T)%nat -> (sg c < mcols T)%nat) -> (forall d, (d < mcols T)%nat -> exists c, (c < mcols T)%nat /\ d = sg c) ->
  (forall i c, (i < nrows M)%nat -> (c < mcols T)%nat -> ll' (sg c) (nth i (mrows M) []) = ll c (nth i (mrows M) [])) ->
  forall m1 m2, exists out out', answers D m1 A T M out /\ answers D m2 A T' M out' /\ nrows out = nrows M /\ nrows out' = nrows M /\
    forall i c, (i < nrows M)%nat -> only_best (mcols T) (fun c => ll c (nth i (mrows M) [])) c ->
      nth i (mrows out) [] = one_hot (mcols T) c /\ nth i (mrows out') [] = one_hot (mcols T) (sg c).
Proof.
  intros H H' K S1 S2 E m1 m2. destruct (H m1) as (m1' & o1 & A1 & A2 & A3 & A4). destruct (H' m2) as (m2' & o2 & B1 & B2 & B3 & B4).
  exists o1, o2. split; [exists m1'; auto|]. split; [exists m2'; auto|]. split; auto. split; auto. intros i c Hi O. split.
  - destruct (A4 i Hi) as (d & D1 & D2). rewrite D1. f_equal. eapply only_best_best; eauto.
  - destruct (B4 i Hi) as (d & D1 & D2). rewrite D1, K. f_equal. rewrite K in D2. eapply only_best_best; [|exact D2]. destruct O as [O1 O2]. split; [auto|].
    intros e He Ne. destruct (S2 e He) as (e' & He' & ->). cbv beta. rewrite !E by auto. apply O2; [exact He'|]. intros Q. apply Ne. now rewrite Q.
Qed.

(** ** The estimates *)
Section Units.
  Context (A A' : matrix R) (cs : list nat).
  Hypothesis Lc : length cs = nrows A.
  Hypothesis N' : nrows A' = nrows A.
  Lemma cnt_same c : cnt A' cs c = cnt A cs c.
  Proof. unfold cnt. now rewrite N'. Qed.
  Lemma prior_same c : prior A' cs c = prior A cs c.
  Proof. unfold prior. now rewrite cnt_same, N'. Qed.
  (** A sum over the rows of class [c] of an affine expression. *)
  Lemma csum_affine a b c j j' : (forall i, (i < nrows A)%nat -> entry A' i j = a * entry A i j' + b) -> csum A' cs c j = a * csum A cs c j' + b * cnt A cs c.
  Proof.
    intros H. unfold csum, cnt. rewrite N', <- !sumR_scal, <- sumR_plus. apply sumR_ext. intros i Hi. destruct (_ =? _)%nat; [rewrite (H i Hi)|]; ring.
  Qed.
  Lemma mean_affine a b c j j' : In c cs -> (forall i, (i < nrows A)%nat -> entry A' i j = a * entry A i j' + b) -> cls_mean A' cs c j = a * cls_mean A cs c j' + b.
  Proof.
    intros I H. unfold cls_mean. rewrite (csum_affine a b c j j' H), cnt_same. pose proof (cnt_pos A cs Lc c I). field. lra.
  Qed.
  Lemma var_affine a b c j j' : In c cs -> (forall i, (i < nrows A)%nat -> entry A' i j = a * entry A i j' + b) -> cls_var A' cs c j = a ^ 2 * cls_var A cs c j'.
  Proof.
    intros I H. unfold cls_var. rewrite N', cnt_same, (mean_affine a b c j j' I H). unfold Rdiv. rewrite <- Rmult_assoc. f_equal. rewrite <- sumR_scal. apply sumR_ext.
    intros i Hi. destruct (_ =? _)%nat; [rewrite (H i Hi)|]; ring.
  Qed.
End Units.

Lemma pdf_units a b mu v x : a <> 0 -> 0 < v -> ln (normal_pdf (a * mu + b) (a ^ 2 * v) (a * x + b)) = ln (normal_pdf mu v x) - ln (Rabs a).
Proof.
  intros Ha Hv. pose proof PI_RGT_0 as HP. assert (0 < Rabs a) by now apply Rabs_pos_lt. assert (0 < 2 * PI * v) by (apply Rmult_lt_0_compat; lra).
  assert (0 < sqrt (2 * PI * v)) by now apply sqrt_lt_R0.
  assert (E : normal_pdf (a * mu + b) (a ^ 2 * v) (a * x + b) = normal_pdf mu v x * / Rabs a).
  { unfold normal_pdf. replace (2 * PI * (a ^ 2 * v)) with ((Rabs a * Rabs a) * (2 * PI * v)).
    2:{ rewrite <- Rabs_mult, Rabs_right by nra. ring. }
    rewrite sqrt_mult, sqrt_square by nra. replace (- (a * x + b - (a * mu + b)) ^ 2 / (2 * (a ^ 2 * v))) with (- (x - mu) ^ 2 / (2 * v)) by (field; lra).
    field. split; lra. }
  rewrite E. assert (0 < normal_pdf mu v x). { unfold normal_pdf. apply Rdiv_lt_0_compat; [apply exp_pos|assumption]. }
  rewrite ln_mult, ln_Rinv; auto. now apply Rinv_0_lt_compat.
Qed.
Lemma gauss_ll_units A A' cs a b c x x' : length cs = nrows A -> in_units a b A A' -> In c cs -> (forall j, (j < mcols A)%nat -> a j <> 0) ->
  (forall j, (j < mcols A)%nat -> 0 < cls_var A cs c j) -> (forall j, (j < mcols A)%nat -> nth j x' 0 = a j * nth j x 0 + b j) ->
  gauss_ll A' cs c x' = gauss_ll A cs c x + - sumR (mcols A) (fun j => ln (Rabs (a j))).
Proof.
  intros Lc ((W & N & C) & E) I Ha V Ex. unfold gauss_ll. rewrite C, (prior_same A A' cs N).
  replace (- sumR (mcols A) (fun j => ln (Rabs (a j)))) with (sumR (mcols A) (fun j => (-1) * ln (Rabs (a j)))) by (rewrite sumR_scal; ring).
  rewrite Rplus_assoc, <- sumR_plus. f_equal. apply sumR_ext. intros j Hj.
  rewrite (mean_affine A A' cs Lc N (a j) (b j) c j j I), (var_affine A A' cs Lc N (a j) (b j) c j j I), Ex by auto.
  rewrite pdf_units by auto. ring.
Qed.
Lemma perm_lt pi d k : Permutation pi (seq 0 d) -> (k < d)%nat -> (nth k pi 0 < d)%nat.
Proof.
  intros P Hk. pose proof (Permutation_length P) as L. rewrite seq_length in L.
  assert (In (nth k pi 0%nat) (seq 0 d)) as Q by (apply (Permutation_in _ P), nth_In; lia). apply in_seq in Q. lia.
Qed.
Lemma gauss_ll_order A A' cs pi c x x' : length cs = nrows A -> in_order pi A A' -> Permutation pi (seq 0 (mcols A)) -> In c cs ->
  (forall j, (j < mcols A)%nat -> nth j x' 0 = nth (nth j pi 0%nat) x 0) -> gauss_ll A' cs c x' = gauss_ll A cs c x.
Proof.
  intros Lc ((W & N & C) & E) P I Ex. unfold gauss_ll. rewrite C, (prior_same A A' cs N). f_equal.
  rewrite <- (Proof_Equiv.sumR_perm pi (mcols A) (fun j => ln (normal_pdf (cls_mean A cs c j) (cls_var A cs c j) (nth j x 0))) P).
  apply sumR_ext. intros j Hj. assert (Q : forall i, (i < nrows A)%nat -> entry A' i j = 1 * entry A i (nth j pi 0%nat) + 0) by (intros; rewrite E by auto; ring).
  rewrite (mean_affine A A' cs Lc N 1 0 c j _ I Q), (var_affine A A' cs Lc N 1 0 c j _ I Q), Ex by auto. do 3 f_equal; ring.
Qed.
Lemma csum_order A A' cs pi c j : in_order pi A A' -> (j < mcols A)%nat -> csum A' cs c j = csum A cs c (nth j pi 0%nat).
Proof. intros ((W & N & C) & E) Hj. rewrite (csum_affine A A' cs N 1 0 c j (nth j pi 0%nat)); [ring|]. intros. rewrite E by auto. ring. Qed.
Lemma bern_ll_order A A' cs pi c x x' : in_order pi A A' -> Permutation pi (seq 0 (mcols A)) ->
  (forall j, (j < mcols A)%nat -> nth j x' 0 = nth (nth j pi 0%nat) x 0) -> bern_ll A' cs c x' = bern_ll A cs c x.
Proof.
  intros O P Ex. destruct O as ((W & N & C) & E) eqn:EO. unfold bern_ll. rewrite C, (prior_same A A' cs N). f_equal.
  rewrite <- (Proof_Equiv.sumR_perm pi (mcols A) (fun j => nth j x 0 * ln (bern_p A cs c j) + (1 - nth j x 0) * ln (1 - bern_p A cs c j)) P).
  apply sumR_ext. intros j Hj. unfold bern_p. rewrite (csum_order A A' cs pi c j O Hj), (cnt_same A A' cs N), Ex by auto. reflexivity.
Qed.
Lemma mult_ll_order A A' cs pi c x x' : in_order pi A A' -> Permutation pi (seq 0 (mcols A)) ->
  (forall j, (j < mcols A)%nat -> nth j x' 0 = nth (nth j pi 0%nat) x 0) -> mult_ll A' cs c x' = mult_ll A cs c x.
Proof.
  intros O P Ex. destruct O as ((W & N & C) & E) eqn:EO. unfold mult_ll. rewrite C, (prior_same A A' cs N). f_equal.
  rewrite <- (Proof_Equiv.sumR_perm pi (mcols A) (fun j => nth j x 0 * ln (mult_p A cs c j)) P).
  apply sumR_ext. intros j Hj. unfold mult_p. rewrite C, (csum_order A A' cs pi c j O Hj), Ex by auto. do 3 f_equal.
  rewrite <- (Proof_Equiv.sumR_perm pi (mcols A) (fun j => csum A cs c j + 1) P). apply sumR_ext. intros k Hk. now rewrite (csum_order A A' cs pi c k O Hk).
Qed.
Lemma bern_ll_code A A' cs flip c x x' : length cs = nrows A -> in_code flip A A' -> In c cs ->
  (forall j, (j < mcols A)%nat -> nth j x' 0 = if flip j then 1 - nth j x 0 else nth j x 0) -> bern_ll A' cs c x' = bern_ll A cs c x.
Proof.
  intros Lc ((W & N & C) & E) I Ex. unfold bern_ll. rewrite C, (prior_same A A' cs N). f_equal. apply sumR_ext. intros j Hj. rewrite Ex by auto.
  unfold bern_p. rewrite (cnt_same A A' cs N). pose proof (cnt_pos A cs Lc c I) as Hc. destruct (flip j) eqn:F.
  - rewrite (csum_affine A A' cs N (-1) 1 c j j). 2:{ intros i Hi. rewrite E, F by auto. ring. }
    replace ((-1 * csum A cs c j + 1 * cnt A cs c + 1) / (cnt A cs c + 2)) with (1 - (csum A cs c j + 1) / (cnt A cs c + 2)) by (field; lra).
    replace (1 - (1 - (csum A cs c j + 1) / (cnt A cs c + 2))) with ((csum A cs c j + 1) / (cnt A cs c + 2)) by ring. ring.
  - rewrite (csum_affine A A' cs N 1 0 c j j). 2:{ intros i Hi. rewrite E, F by auto. ring. }
    replace (1 * csum A cs c j + 0 * cnt A cs c) with (csum A cs c j) by ring. reflexivity.
Qed.

(** ** Names of the classes *)
Section Names.
  Context (A : matrix R) (cs : list nat) (sg : nat -> nat) (k : nat).
  Hypothesis Lc : length cs = nrows A.
  Hypothesis Hk : Forall (fun c => (c < k)%nat) cs.
  Hypothesis INJ : forall c d, (c < k)%nat -> (d < k)%nat -> sg c = sg d -> c = d.
  Lemma named i c : (i < nrows A)%nat -> (c < k)%nat -> (nth i (map sg cs) 0 =? sg c)%nat = (nth i cs 0 =? c)%nat.
  Proof.
    intros Hi Hc. rewrite (nth_indep _ 0%nat (sg 0%nat)) by (rewrite map_length; lia). rewrite map_nth.
    assert (nth i cs 0 < k)%nat by (rewrite Forall_forall in Hk; apply Hk, nth_In; lia).
    destruct (Nat.eqb_spec (nth i cs 0%nat) c) as [->|Q]; [apply Nat.eqb_refl|]. apply Nat.eqb_neq. intros E. apply Q. now apply INJ.
  Qed.
  Lemma cnt_named c : (c < k)%nat -> cnt A (map sg cs) (sg c) = cnt A cs c.
  Proof. intros Hc. unfold cnt. apply sumR_ext. intros i Hi. now rewrite named. Qed.
  Lemma csum_named c j : (c < k)%nat -> csum A (map sg cs) (sg c) j = csum A cs c j.
  Proof. intros Hc. unfold csum. apply sumR_ext. intros i Hi. now rewrite named. Qed.
  Lemma prior_named c : (c < k)%nat -> prior A (map sg cs) (sg c) = prior A cs c.
  Proof. intros Hc. unfold prior. now rewrite cnt_named. Qed.
  Lemma mean_named c j : (c < k)%nat -> cls_mean A (map sg cs) (sg c) j = cls_mean A cs c j.
  Proof. intros Hc. unfold cls_mean. now rewrite cnt_named, csum_named. Qed.
  Lemma var_named c j : (c < k)%nat -> cls_var A (map sg cs) (sg c) j = cls_var A cs c j.
  Proof. intros Hc. unfold cls_var. rewrite cnt_named, mean_named by auto. f_equal. apply sumR_ext. intros i Hi. now rewrite named. Qed.
  Lemma gauss_named c x : (c < k)%nat -> gauss_ll A (map sg cs) (sg c) x = gauss_ll A cs c x.
  Proof. intros Hc. unfold gauss_ll. rewrite prior_named by auto. f_equal. apply sumR_ext. intros j Hj. now rewrite mean_named, var_named. Qed.
  Lemma bern_named c x : (c < k)%nat -> bern_ll A (map sg cs) (sg c) x = bern_ll A cs c x.
  Proof. intros Hc. unfold bern_ll. rewrite prior_named by auto. f_equal. apply sumR_ext. intros j Hj. unfold bern_p. now rewrite csum_named, cnt_named. Qed.
  Lemma mult_named c x : (c < k)%nat -> mult_ll A (map sg cs) (sg c) x = mult_ll A cs c x.
  Proof.
    intros Hc. unfold mult_ll. rewrite prior_named by auto. f_equal. apply sumR_ext. intros j Hj. unfold mult_p. rewrite csum_named by auto. do 3 f_equal.
    apply sumR_ext. intros j' Hj'. now rewrite csum_named.
  Qed.
End Names.

(** ** The classifiers *)
Section Models.
  Context (A T M : matrix R) (cs : list nat).
  Hypothesis H : classified A T M cs.
  Lemma cl_length : length cs = nrows A.
  Proof. destruct H as (W & L & Lb & _). destruct (labels_lt T cs W Lb). lia. Qed.
  Lemma cl_shape A' M' : same_shape A A' -> same_shape M M' -> classified A' T M' cs.
  Proof. destruct H as (W & L & Lb & A1 & K & WM & C). intros (W' & N' & C') (W2 & N2 & C2). repeat split; auto; try lia. Qed.
  Lemma gauss_maps : gauss_ready A cs (mcols T) -> maps Gaussian (gauss_ll A cs) A T M.
  Proof. destruct H as (W & L & Lb & A1 & K & WM & C). intros (G1 & G2) m. now apply gauss_map. Qed.
  Lemma bern_maps : between 0 1 A -> maps Bernoulli (bern_ll A cs) A T M.
  Proof. destruct H as (W & L & Lb & A1 & K & WM & C). intros G m. now apply bernoulli_map. Qed.
  Lemma mult_maps : nonneg A -> maps Multinomial (mult_ll A cs) A T M.
  Proof. destruct H as (W & L & Lb & A1 & K & WM & C). intros G m. now apply multinomial_map. Qed.
End Models.

Theorem gauss_units A A' T M M' cs a b : classified A T M cs -> gauss_ready A cs (mcols T) ->
  (forall j, (j < mcols A)%nat -> a j <> 0) -> in_units a b A A' -> in_units a b M M' ->
  forall m1 m2, exists out, answers Gaussian m1 A T M out /\ answers Gaussian m2 A' T M' out.
Proof.
  intros H G Ha U UM. pose proof (cl_length _ _ _ _ H) as Lc. pose proof (cl_shape _ _ _ _ H A' M' (proj1 U) (proj1 UM)) as H'.
  destruct H as (W & L & Lb & ALL & K & WM & C) eqn:EH. clear EH. pose proof U as ((W' & N' & C') & E). pose proof UM as ((WM' & NM' & CM') & EM).
  apply (maps_same Gaussian (gauss_ll A cs) (gauss_ll A' cs)); auto.
  - apply gauss_maps; auto. repeat split; auto.
  - apply (gauss_maps _ _ _ _ H'). destruct G as (G1 & G2). split; auto. intros c j Hc Hj. rewrite C' in Hj.
    rewrite (var_affine A A' cs Lc N' (a j) (b j) c j j) by auto. apply Rmult_lt_0_compat; auto. specialize (Ha j Hj). nra.
  - intros i Hi. exists (- sumR (mcols A) (fun j => ln (Rabs (a j)))). intros c Hc. apply gauss_ll_units with (b := b); auto.
    + intros j Hj. now apply (proj2 G).
    + intros j Hj. apply (EM i j); auto. lia.
Qed.
Theorem gauss_order A A' T M M' cs pi : classified A T M cs -> gauss_ready A cs (mcols T) ->
  Permutation pi (seq 0 (mcols A)) -> in_order pi A A' -> in_order pi M M' ->
  forall m1 m2, exists out, answers Gaussian m1 A T M out /\ answers Gaussian m2 A' T M' out.
Proof.
  intros H G P U UM. pose proof (cl_length _ _ _ _ H) as Lc. pose proof (cl_shape _ _ _ _ H A' M' (proj1 U) (proj1 UM)) as H'.
  destruct H as (W & L & Lb & ALL & K & WM & C) eqn:EH. clear EH. pose proof U as ((W' & N' & C') & E). pose proof UM as ((WM' & NM' & CM') & EM).
  apply (maps_same Gaussian (gauss_ll A cs) (gauss_ll A' cs)); auto.
  - apply gauss_maps; auto. repeat split; auto.
  - apply (gauss_maps _ _ _ _ H'). destruct G as (G1 & G2). split; auto. intros c j Hc Hj. rewrite C' in Hj.
    rewrite (var_affine A A' cs Lc N' 1 0 c j (nth j pi 0%nat)); auto.
    + pose proof (G2 c _ Hc (perm_lt pi _ j P Hj)). lra.
    + intros i Hi. rewrite E by auto. ring.
  - intros i Hi. exists 0. intros c Hc. rewrite Rplus_0_r. apply gauss_ll_order with (pi := pi); auto. intros j Hj. apply (EM i j); auto. lia.
Qed.
Theorem bern_order A A' T M M' cs pi : classified A T M cs -> between 0 1 A ->
  Permutation pi (seq 0 (mcols A)) -> in_order pi A A' -> in_order pi M M' ->
  forall m1 m2, exists out, answers Bernoulli m1 A T M out /\ answers Bernoulli m2 A' T M' out.
Proof.
  intros H G P U UM. pose proof (cl_length _ _ _ _ H) as Lc. pose proof (cl_shape _ _ _ _ H A' M' (proj1 U) (proj1 UM)) as H'.
  destruct H as (W & L & Lb & ALL & K & WM & C) eqn:EH. clear EH. pose proof U as ((W' & N' & C') & E). pose proof UM as ((WM' & NM' & CM') & EM).
  apply (maps_same Bernoulli (bern_ll A cs) (bern_ll A' cs)); auto.
  - apply bern_maps; auto. repeat split; auto.
  - apply (bern_maps _ _ _ _ H'). intros i j Hi Hj. rewrite E by lia. apply G; [lia|]. apply perm_lt; auto. lia.
  - intros i Hi. exists 0. intros c Hc. rewrite Rplus_0_r. apply bern_ll_order with (pi := pi); auto. intros j Hj. apply (EM i j); auto. lia.
Qed.
Theorem mult_order A A' T M M' cs pi : classified A T M cs -> nonneg A ->
  Permutation pi (seq 0 (mcols A)) -> in_order pi A A' -> in_order pi M M' ->
  forall m1 m2, exists out, answers Multinomial m1 A T M out /\ answers Multinomial m2 A' T M' out.
Proof.
  intros H G P U UM. pose proof (cl_length _ _ _ _ H) as Lc. pose proof (cl_shape _ _ _ _ H A' M' (proj1 U) (proj1 UM)) as H'.
  destruct H as (W & L & Lb & ALL & K & WM & C) eqn:EH. clear EH. pose proof U as ((W' & N' & C') & E). pose proof UM as ((WM' & NM' & CM') & EM).
  apply (maps_same Multinomial (mult_ll A cs) (mult_ll A' cs)); auto.
  - apply mult_maps; auto. repeat split; auto.
  - apply (mult_maps _ _ _ _ H'). intros i j Hi Hj. rewrite E by lia. apply G; [lia|]. apply perm_lt; auto. lia.
  - intros i Hi. exists 0. intros c Hc. rewrite Rplus_0_r. apply mult_ll_order with (pi := pi); auto. intros j Hj. apply (EM i j); auto. lia.
Qed.
Theorem bern_code A A' T M M' cs flip : classified A T M cs -> between 0 1 A -> in_code flip A A' -> in_code flip M M' ->
  forall m1 m2, exists out, answers Bernoulli m1 A T M out /\ answers Bernoulli m2 A' T M' out.
Proof.
  intros H G U UM. pose proof (cl_length _ _ _ _ H) as Lc. pose proof (cl_shape _ _ _ _ H A' M' (proj1 U) (proj1 UM)) as H'.
  destruct H as (W & L & Lb & ALL & K & WM & C) eqn:EH. clear EH. pose proof U as ((W' & N' & C') & E). pose proof UM as ((WM' & NM' & CM') & EM).
  apply (maps_same Bernoulli (bern_ll A cs) (bern_ll A' cs)); auto.
  - apply bern_maps; auto. repeat split; auto.
  - apply (bern_maps _ _ _ _ H'). intros i j Hi Hj. rewrite E by lia. assert (0 <= entry A i j <= 1) by (apply G; lia). destruct (flip j); lra.
  - intros i Hi. exists 0. intros c Hc. rewrite Rplus_0_r. apply bern_ll_code with (flip := flip); auto. intros j Hj. apply (EM i j); auto. lia.
Qed.

(** *** Names of the classes *)
Lemma hot_label k c : (c < k)%nat -> is_label (one_hot (F := R) k c) c.
Proof.
  intros Hc. unfold is_label, one_hot. rewrite map_length, seq_length. split; auto. split.
  - rewrite (nth_map_seq _ _ _ nzero) by auto. rewrite Nat.eqb_refl. cbn. destruct (Req_EM_T 1 1) as [_|Q]; [reflexivity|now destruct Q].
  - intros j Hj. rewrite (nth_map_seq _ _ _ nzero) by lia. rewrite (proj2 (Nat.eqb_neq j c)) by lia. cbn. destruct (Req_EM_T 0 1); auto. exfalso; lra.
Qed.
Section Rename.
  Context (A M : matrix R) (cs : list nat) (k : nat) (pi : list nat).
  Hypothesis Lc : length cs = nrows A.
  Hypothesis Hk : Forall (fun c => (c < k)%nat) cs.
  Hypothesis ALL : forall c, (c < k)%nat -> In c cs.
  Hypothesis K0 : (0 < k)%nat.
  Hypothesis WM : mwf M.
  Hypothesis CM : mcols M = mcols A.
  Hypothesis P : Permutation pi (seq 0 k).
  Let sg c := nth c pi 0%nat.
  Lemma sg_lt c : (c < k)%nat -> (sg c < k)%nat.
  Proof. now apply perm_lt. Qed.
  Lemma sg_len : length pi = k. Proof. apply Permutation_length in P. now rewrite seq_length in P. Qed.
  Lemma sg_inj c d : (c < k)%nat -> (d < k)%nat -> sg c = sg d -> c = d.
  Proof.
    intros Hc Hd E. assert (ND : NoDup pi) by (apply (Permutation_NoDup (Permutation_sym P)), seq_NoDup). rewrite (NoDup_nth pi 0%nat) in ND. apply ND; auto; now rewrite sg_len.
  Qed.
  Lemma sg_onto d : (d < k)%nat -> exists c, (c < k)%nat /\ d = sg c.
  Proof.
    intros Hd. assert (I : In d pi) by (apply (Permutation_in _ (Permutation_sym P)), in_seq; lia). destruct (In_nth _ _ 0%nat I) as (c & C1 & C2).
    exists c. rewrite sg_len in C1. split; auto.
  Qed.
  Lemma hot_classified ds : length ds = nrows A -> Forall (fun c => (c < k)%nat) ds -> (forall c, (c < k)%nat -> In c ds) -> classified A (hot_targets k ds) M ds.
  Proof.
    intros L F Al. repeat split; auto.
    - unfold hot_targets, mwf. cbn. apply Forall_map, Forall_forall. intros c _. unfold one_hot. now rewrite map_length, seq_length.
    - unfold hot_targets, nrows. cbn. rewrite map_length. exact L.
    - unfold labelled, hot_targets. cbn. clear L Al. induction F; cbn; constructor; auto. now apply hot_label.
  Qed.
  Lemma cs'_ok : length (map sg cs) = nrows A /\ Forall (fun c => (c < k)%nat) (map sg cs) /\ forall c, (c < k)%nat -> In c (map sg cs).
  Proof.
    split; [now rewrite map_length|]. split; [apply Forall_map; eapply Forall_impl; [|exact Hk]; intros; now apply sg_lt|].
    intros c Hc. destruct (sg_onto c Hc) as (d & Hd & ->). apply in_map. auto.
  Qed.
  Lemma count_named c : (c < k)%nat -> count_occ Nat.eq_dec (map sg cs) (sg c) = count_occ Nat.eq_dec cs c.
  Proof.
    intros Hc. assert (G : forall l, Forall (fun c => (c < k)%nat) l -> count_occ Nat.eq_dec (map sg l) (sg c) = count_occ Nat.eq_dec l c).
    { induction l as [|e l IH]; intros F; [reflexivity|]. inversion F as [|? ? F1 F2]. subst. cbn [map count_occ]. rewrite IH by auto.
      destruct (Nat.eq_dec (sg e) (sg c)) as [Q|Q], (Nat.eq_dec e c) as [Q'|Q']; auto.
      - exfalso. apply Q'. now apply sg_inj.
      - exfalso. subst. now apply Q. }
    now apply G.
  Qed.
  Theorem gauss_names : gauss_ready A cs k -> forall m1 m2, exists out out',
    answers Gaussian m1 A (hot_targets k cs) M out /\ answers Gaussian m2 A (hot_targets k (map sg cs)) M out' /\ nrows out = nrows M /\ nrows out' = nrows M /\
    forall i c, (i < nrows M)%nat -> only_best k (fun c => gauss_ll A cs c (nth i (mrows M) [])) c ->
      nth i (mrows out) [] = one_hot k c /\ nth i (mrows out') [] = one_hot k (sg c).
  Proof.
    intros G. destruct cs'_ok as (L' & F' & A'). apply (maps_renamed Gaussian (gauss_ll A cs) (gauss_ll A (map sg cs)) A (hot_targets k cs) (hot_targets k (map sg cs)) M sg); auto.
    - apply (gauss_maps _ _ _ _ (hot_classified cs Lc Hk ALL) G).
    - apply (gauss_maps _ _ _ _ (hot_classified _ L' F' A')). destruct G as (G1 & G2). split.
      + intros c Hc. destruct (sg_onto c Hc) as (d & Hd & ->). rewrite count_named by auto. now apply G1.
      + intros c j Hc Hj. destruct (sg_onto c Hc) as (d & Hd & ->). rewrite (var_named A cs sg k Lc Hk sg_inj) by auto. now apply G2.
    - apply sg_lt.
    - apply sg_onto.
    - intros i c Hi Hc. apply (gauss_named A cs sg k Lc Hk sg_inj). exact Hc.
  Qed.
  Theorem bern_names : between 0 1 A -> forall m1 m2, exists out out',
    answers Bernoulli m1 A (hot_targets k cs) M out /\ answers Bernoulli m2 A (hot_targets k (map sg cs)) M out' /\ nrows out = nrows M /\ nrows out' = nrows M /\
    forall i c, (i < nrows M)%nat -> only_best k (fun c => bern_ll A cs c (nth i (mrows M) [])) c ->
      nth i (mrows out) [] = one_hot k c /\ nth i (mrows out') [] = one_hot k (sg c).
  Proof.
    intros G. destruct cs'_ok as (L' & F' & A'). apply (maps_renamed Bernoulli (bern_ll A cs) (bern_ll A (map sg cs)) A (hot_targets k cs) (hot_targets k (map sg cs)) M sg); auto.
    - apply (bern_maps _ _ _ _ (hot_classified cs Lc Hk ALL) G).
    - apply (bern_maps _ _ _ _ (hot_classified _ L' F' A') G).
    - apply sg_lt.
    - apply sg_onto.
    - intros i c Hi Hc. apply (bern_named A cs sg k Lc Hk sg_inj). exact Hc.
  Qed.
  Theorem mult_names : nonneg A -> forall m1 m2, exists out out',
    answers Multinomial m1 A (hot_targets k cs) M out /\ answers Multinomial m2 A (hot_targets k (map sg cs)) M out' /\ nrows out = nrows M /\ nrows out' = nrows M /\
    forall i c, (i < nrows M)%nat -> only_best k (fun c => mult_ll A cs c (nth i (mrows M) [])) c ->
      nth i (mrows out) [] = one_hot k c /\ nth i (mrows out') [] = one_hot k (sg c).
  Proof.
    intros G. destruct cs'_ok as (L' & F' & A'). apply (maps_renamed Multinomial (mult_ll A cs) (mult_ll A (map sg cs)) A (hot_targets k cs) (hot_targets k (map sg cs)) M sg); auto.
    - apply (mult_maps _ _ _ _ (hot_classified cs Lc Hk ALL) G).
    - apply (mult_maps _ _ _ _ (hot_classified _ L' F' A') G).
    - apply sg_lt.
    - apply sg_onto.
    - intros i c Hi Hc. apply (mult_named A cs sg k Lc Hk sg_inj). exact Hc.
  Qed.
End Rename.
