(** Lemmas for [Props_Between]. *)
From Coq Require Import List Arith Lia Bool Reals Lra.
From Verif Require Import Base BaseLemmas Num NumFn NumSign NumOrd Linalg LinalgR ArgLemmas Model_Optim Model_Toolkit Model_Regression Model_GLM Model_Kernel Model_GP Model_SVM Model_KMeans Model_NaiveBayes
  Spec_Between Spec_SVM Proof_SVM Proof_Regression.
Import ListNotations.
Local Open Scope R_scope.

Lemma mix_length t x y : length x = length y -> length (mix t x y) = length x.
Proof. intros H. unfold mix. rewrite map2_length, H. apply Nat.min_id. Qed.
Lemma dot_mix t x y w : length x = length y -> dot (mix t x y) w = t * dot x w + (1 - t) * dot y w.
Proof.
  revert y w. induction x as [|a x IH]; intros [|b y] w L; try discriminate; [cbn; unfold dot; cbn; ring|]. destruct w as [|c w]; [rewrite !dot_nil_r; ring|].
  change (mix t (a :: x) (b :: y)) with ((t * a + (1 - t) * b) :: mix t x y). rewrite !dot_cons, IH by (cbn in L; lia). ring.
Qed.
Lemma mix_cons t x y : 1 :: mix t x y = mix t (1 :: x) (1 :: y).
Proof. unfold mix. cbn [map2]. f_equal. ring. Qed.

(** ** Linear predictors *)
Lemma affine_by (predict : matrix R -> res (list R)) (w : option (list R)) (e : res (list R)) :
  (forall P, predict P = match w with Some v => rmat_vec (with_ones P) v | None => Err UntrainedModel end) -> affine_answers predict.
Proof.
  intros H x y a b t L. rewrite !H. destruct w as [v|]; [|discriminate]. unfold rmat_vec, query, with_ones, mat_vec. cbn [mcols mrows map]. rewrite mix_length, <- L by exact L.
  destruct (S (length x) =? length v)%nat; cbn [rassert]; [|discriminate]. intros [= <-] [= <-]. do 2 f_equal. rewrite mix_cons, dot_mix by (cbn; now f_equal). reflexivity.
Qed.
Theorem lr_affine self : affine_answers (lr_predict self).
Proof. apply (affine_by _ (lr_parameters self) Panic). reflexivity. Qed.
Lemma between_by (predict : matrix R -> res (list R)) (w : option (list R)) (f : R -> R) : (forall u v, u <= v -> f u <= f v) ->
  (forall P, predict P = match w with Some v => let? z := rmat_vec (with_ones P) v in Ok (map f z) | None => Err UntrainedModel end) -> in_between predict.
Proof.
  intros M H x y a b t L. rewrite !H. destruct w as [v|]; [|discriminate]. unfold rmat_vec, query, with_ones, mat_vec. cbn [mcols mrows map]. rewrite mix_length, <- L by exact L.
  destruct (S (length x) =? length v)%nat; cbn [rassert rbind map]; [|discriminate]. intros [= <-] [= <-] Ht. eexists. split; [reflexivity|].
  change (@nonev R NumR) with 1. rewrite mix_cons, dot_mix by (cbn; now f_equal). set (p := dot (1 :: x) v). set (q := dot (1 :: y) v).
  destruct (Rle_dec p q) as [Q|Q].
  - pose proof (M p q Q). rewrite Rmin_left, Rmax_right by lra. split; apply M; nra.
  - pose proof (M q p ltac:(lra)). rewrite Rmin_right, Rmax_left by lra. split; apply M; nra.
Qed.
Lemma exp_mono u v : u <= v -> exp u <= exp v. Proof. intros [H| ->]; [left; now apply exp_increasing|now right]. Qed.
Lemma logistic_mono u v : u <= v -> 1 / (1 + exp (- u)) <= 1 / (1 + exp (- v)).
Proof.
  intros H. pose proof (exp_pos (- u)). pose proof (exp_pos (- v)). pose proof (exp_mono (- v) (- u) ltac:(lra)).
  unfold Rdiv. rewrite !Rmult_1_l. apply Rinv_le_contravar; lra.
Qed.
Theorem log_between self : in_between (log_predict self).
Proof. apply (between_by _ (log_parameters self) sigmoid); [exact logistic_mono|reflexivity]. Qed.
Theorem glm_between (cr : Model_GLM.Criterion R) self : In (cr_link cr) [Model_GLM.Identity; Model_GLM.Logit; Model_GLM.Log] -> in_between (glm_predict cr self).
Proof.
  intros H. apply (between_by _ (glm_parameters self) (lk_inv (cr_link cr))); [|reflexivity].
  destruct H as [<-|[<-|[<-|[]]]]; cbn; [auto|exact logistic_mono|exact exp_mono].
Qed.

(** ** Kernel machines with the linear kernel *)
Lemma lin_rows c (z : list R) (T : list (list R)) : rmap (fun r => k_linear c z r) T = Ok (map (fun r => dot z r + c) T).
Proof. induction T as [|r T IH]; [reflexivity|]. cbn [rmap map]. unfold k_linear at 1. cbn [rbind]. now rewrite IH. Qed.
Lemma lin_mix c t (x y : list R) (T : list (list R)) w : length x = length y ->
  dot (map (fun r => dot (mix t x y) r + c) T) w = t * dot (map (fun r => dot x r + c) T) w + (1 - t) * dot (map (fun r => dot y r + c) T) w.
Proof.
  intros L. revert w. induction T as [|r T IH]; intros [|a w]; cbn [map]; rewrite ?dot_nil_l, ?dot_nil_r; try ring. rewrite !dot_cons, IH, dot_mix by exact L. ring.
Qed.
Theorem svm_convex c self : convex_regions (svm_predict (k_linear c) self).
Proof.
  intros x y o t L. unfold svm_predict. destruct (svm_alpha self) as [al|]; [|discriminate]. destruct (svm_train_inputs self) as [T|]; [|discriminate]. destruct (svm_train_targets self) as [ys|]; [|discriminate].
  unfold ker_mat, query, with_ones. cbn [mcols mrows map]. rewrite mix_length, <- L by exact L. destruct (S (length x) =? mcols T)%nat; [|discriminate]. cbn [negb rmap].
  rewrite !lin_rows. cbn [rbind]. destruct (length al =? length ys)%nat; cbn [rassert]; [|discriminate]. unfold rmat_vec, mat_vec. cbn [mcols mrows map].
  destruct (nrows T =? _)%nat; cbn [rassert rbind map]; [|discriminate]. intros [= <-]. intros E Ht. do 2 f_equal.
  change (@nonev R NumR) with 1 in *. rewrite mix_cons, lin_mix by (cbn; now f_equal). injection E as E.
  set (p := dot (map (fun r => dot (1 :: x) r + c) (mrows T)) _) in *. set (q := dot (map (fun r => dot (1 :: y) r + c) (mrows T)) _) in *. rewrite !nsignum_R in *.
  destruct (Rlt_dec q 0), (Rlt_dec p 0); try lra; destruct Rlt_dec; try reflexivity; exfalso; nra.
Qed.
Theorem gp_affine c a self : affine_answers (gp_predict (k_linear c) (const_mean a) self).
Proof.
  intros x y u v t L. unfold gp_predict. destruct (gp_alpha self) as [al|]; [|discriminate]. destruct (gp_train_data self) as [T|]; [|discriminate].
  unfold ker_mat, query. cbn [mcols mrows]. rewrite mix_length, <- L by exact L. destruct (length x =? mcols T)%nat; [|discriminate]. cbn [negb rmap].
  rewrite !lin_rows. cbn [rbind]. unfold rmat_vec, mat_vec. cbn [mcols mrows map]. destruct (nrows T =? _)%nat; cbn [rassert rbind]; [|discriminate].
  unfold rvadd, const_mean. cbn. intros [= <-] [= <-]. do 2 f_equal. rewrite lin_mix by exact L. ring.
Qed.

(** ** The first best of several scores *)
Definition combine (t e : R) (l l' : list R) : list R := map2 (fun a b => t * a + (1 - t) * b + e) l l'.
Lemma combine_nth t e l l' i : length l = length l' -> (i < length l)%nat -> nth i (combine t e l l') 0 = t * nth i l 0 + (1 - t) * nth i l' 0 + e.
Proof.
  revert l' i. induction l as [|a l IH]; intros [|b l'] i L H; cbn in *; try lia; try discriminate. destruct i as [|i]; [reflexivity|]. apply IH; lia.
Qed.
Lemma combine_length t e l l' : length l = length l' -> length (combine t e l l') = length l.
Proof. intros H. unfold combine. rewrite map2_length, H. apply Nat.min_id. Qed.
Definition first_min (l : list R) (c : nat) : Prop := (c < length l)%nat /\ (forall j, (j < length l)%nat -> nth c l 0 <= nth j l 0) /\ (forall j, (j < c)%nat -> nth c l 0 < nth j l 0).
Lemma argmin_iff (l : list R) c : (exists v, argmin l = Ok (c, v)) <-> first_min l c.
Proof.
  destruct l as [|a l]; [split; [intros (v & H); discriminate|intros [H _]; cbn in H; lia]|].
  destruct (argmin_spec (a :: l)) as (k & v & E & K & Nv & A & B); [discriminate|reflexivity|]. change (@nzero R NumR) with 0 in *.
  assert (FK : first_min (a :: l) k). { split; [exact K|]. rewrite Nv. split; intros j Hj; [apply nltb_R_false|apply nltb_R]; auto. }
  split.
  - intros (v' & E'). rewrite E in E'. injection E' as <- <-. exact FK.
  - intros FC. exists v. rewrite E. f_equal. f_equal. destruct FK as (K1 & K2 & K3), FC as (C1 & C2 & C3).
    destruct (Nat.lt_trichotomy k c) as [H|[H|H]]; [|exact H|].
    + specialize (C3 k H). specialize (K2 c C1). lra.
    + specialize (K3 c H). specialize (C2 k K1). lra.
Qed.
Lemma first_min_combine t e l l' c : 0 <= t <= 1 -> length l = length l' -> first_min l c -> first_min l' c -> first_min (combine t e l l') c.
Proof.
  intros Ht L (A1 & A2 & A3) (B1 & B2 & B3). unfold first_min. rewrite combine_length by exact L. split; [exact A1|]. split; intros j Hj.
  - rewrite !combine_nth by (auto; lia). specialize (A2 j Hj). specialize (B2 j ltac:(lia)). nra.
  - rewrite !combine_nth by (auto; lia). specialize (A3 j Hj). specialize (B3 j Hj). destruct (Req_dec t 0) as [->|]; [lra|]. nra.
Qed.
Lemma argmax_argmin (l : list R) c v : argmax l = Ok (c, v) -> argmin (map Ropp l) = Ok (c, - v).
Proof.
  destruct l as [|a l]; [discriminate|]. cbn [argmax argmin map]. intros H0. assert (H : argbest (fun v m => nltb m v) l 1 0 a = (c, v)) by congruence. clear H0. f_equal.
  assert (G : forall l i bi bv, argbest (fun v m => nltb v m) (map Ropp l) i bi (- bv) = (fst (argbest (fun v m => nltb m v) l i bi bv), - snd (argbest (fun v m => nltb m v) l i bi bv))).
  { clear. induction l as [|x l IH]; intros i bi bv; cbn [argbest map]; [reflexivity|].
    assert (E : nltb (- x) (- bv) = nltb bv x). { destruct (nltb bv x) eqn:E; [apply nltb_R in E; apply nltb_R; lra|apply nltb_R_false in E; apply nltb_R_false; lra]. }
    rewrite E. destruct (nltb bv x); apply IH. }
  now rewrite G, H.
Qed.
Lemma argmax_some (l : list R) c v : argmin (map Ropp l) = Ok (c, v) -> exists u, argmax l = Ok (c, u).
Proof.
  destruct l as [|a l]; [discriminate|]. intros H. destruct (argmax (a :: l)) as [[c' u]|k|] eqn:E; [|discriminate|discriminate].
  apply argmax_argmin in E. rewrite H in E. injection E as -> _. eauto.
Qed.
(** The scores between two points: [argmax] and [argmin] give the common answer. *)
Lemma argmin_combine t e l l' c : 0 <= t <= 1 -> length l = length l' -> (exists v, argmin l = Ok (c, v)) -> (exists v, argmin l' = Ok (c, v)) -> exists v, argmin (combine t e l l') = Ok (c, v).
Proof. rewrite !argmin_iff. apply first_min_combine. Qed.
Lemma argmax_combine t e l l' c : 0 <= t <= 1 -> length l = length l' -> (exists v, argmax l = Ok (c, v)) -> (exists v, argmax l' = Ok (c, v)) -> exists v, argmax (combine t e l l') = Ok (c, v).
Proof.
  intros Ht L (v & E) (v' & E'). apply argmax_argmin in E. apply argmax_argmin in E'.
  destruct (argmin_combine t (- e) (map Ropp l) (map Ropp l') c) as (u & Q); [exact Ht|now rewrite !map_length|eauto|eauto|].
  assert (M : combine t (- e) (map Ropp l) (map Ropp l') = map Ropp (combine t e l l')).
  { clear - L. revert l' L. induction l as [|a l IH]; intros [|b l'] L; try discriminate; [reflexivity|]. unfold combine in *. cbn [map map2]. rewrite IH by (cbn in L; lia). f_equal. ring. }
  rewrite M in Q. now apply argmax_some in Q.
Qed.

(** ** k-means *)
Lemma sqdist_mix t (c x y : list R) : length x = length y -> length c = length x -> sqdist c (mix t x y) = t * sqdist c x + (1 - t) * sqdist c y + - (t * (1 - t)) * sqdist x y.
Proof.
  unfold sqdist. revert c y. induction x as [|a x IH]; intros [|b c] [|d y] L1 L2; try discriminate; [unfold vsum; cbn; ring|].
  change (mix t (a :: x) (d :: y)) with ((t * a + (1 - t) * d) :: mix t x y). unfold vsub, velemul in *. cbn [map2]. rewrite !vsum_R in *. cbn [rsum].
  specialize (IH c y ltac:(cbn in L1; lia) ltac:(cbn in L2; lia)). rewrite !vsum_R in IH. cbn [nsub nmul NumR] in *. rewrite IH. ring.
Qed.
Theorem km_convex (m : KMeans R) C : km_centroids m = Some C -> mwf C -> convex_regions (km_predict m).
Proof.
  intros EC W x y o t L. unfold km_predict. rewrite EC. unfold find_closest_centroids, query. cbn [mrows mcols rmap]. unfold closest. rewrite mix_length, <- L by exact L.
  destruct (Nat.eqb_spec (mcols C) (length x)) as [H|]; cbn [rassert]; [|discriminate].
  destruct (argmin (map (fun c => sqdist c x) (mrows C))) as [[c v]|k|] eqn:E1; cbn [rbind map]; try discriminate. intros [= <-].
  destruct (argmin (map (fun c => sqdist c y) (mrows C))) as [[c' v']|k|] eqn:E2; cbn [rbind map]; try discriminate. intros [= ->] Ht.
  destruct (argmin_combine t (- (t * (1 - t)) * sqdist x y) (map (fun c => sqdist c x) (mrows C)) (map (fun c => sqdist c y) (mrows C)) c) as (u & Q); [exact Ht|now rewrite !map_length|eauto|eauto|].
  replace (map (fun c => sqdist c (mix t x y)) (mrows C)) with (combine t (- (t * (1 - t)) * sqdist x y) (map (fun c => sqdist c x) (mrows C)) (map (fun c => sqdist c y) (mrows C))); [rewrite Q; reflexivity|].
  unfold mwf in W. clear - W L H. induction (mrows C) as [|r rs IH]; [reflexivity|]. inversion W; subst. unfold combine in *. cbn [map map2]. rewrite IH by assumption. f_equal. rewrite sqdist_mix by lia. reflexivity.
Qed.

(** ** Naive Bayes *)
Lemma nb_one {P} (D : @Distribution R P) (m : NaiveBayes R P) p prior k (sc : list R -> nat -> R) n : nb_distr m = Some p -> nb_class_prior m = Some prior -> nb_cluster_count m = Some k ->
  (forall x, d_joint _ D p (Mat [x] n) prior = Ok (Mat [map (sc x) (seq 0 (length prior))] (length prior))) ->
  forall x o, nb_predict D m (Mat [x] n) = Ok o <-> exists c v, argmax (map (sc x) (seq 0 (length prior))) = Ok (c, v) /\ (let? r := one_hot_row k c in Ok (Mat [r] k)) = Ok o.
Proof.
  intros E1 E2 E3 E4 x o. unfold nb_predict, get_log_probs. rewrite E1, E2, E4, E3. cbn [rbind]. unfold get_classes. cbn [mrows rmap].
  destruct (argmax _) as [[c v]|e|] eqn:EA; cbn [rbind fst]; try (split; [discriminate|intros (c' & v' & H & _); discriminate]).
  cbn [rmap]. split.
  - intros H. exists c, v. split; [reflexivity|]. destruct (one_hot_row k c); cbn [rbind] in *; try discriminate. cbn in H. exact H.
  - intros (c' & v' & [= <- <-] & H). destruct (one_hot_row k c); cbn [rbind] in *; try discriminate. cbn. exact H.
Qed.
Lemma one_hot_inj k c c' (r : list R) : one_hot_row k c = Ok r -> one_hot_row k c' = Ok r -> c = c'.
Proof.
  unfold one_hot_row. destruct (upd (repeat nzero k) c nonev) as [r1|] eqn:E1; [|discriminate]. destruct (upd (repeat nzero k) c' nonev) as [r2|] eqn:E2; [|discriminate].
  intros [= ->] [= ->]. pose proof (upd_nth_error _ _ _ _ c E1) as A. pose proof (upd_nth_error _ _ _ _ c E2) as B. rewrite Nat.eqb_refl in A. rewrite A in B.
  destruct (Nat.eqb_spec c c') as [|N]; [assumption|]. exfalso. symmetry in B. apply nth_error_In in B. apply repeat_spec in B. cbn in B. lra.
Qed.
Lemma nb_convex {P} (D : @Distribution R P) (m : NaiveBayes R P) p prior k (sc : list R -> nat -> R) n :
  nb_distr m = Some p -> nb_class_prior m = Some prior -> nb_cluster_count m = Some k ->
  (forall x, d_joint _ D p (Mat [x] n) prior = Ok (Mat [map (sc x) (seq 0 (length prior))] (length prior))) ->
  forall x y o t, (exists e, forall i, (i < length prior)%nat -> sc (mix t x y) i = t * sc x i + (1 - t) * sc y i + e) ->
  nb_predict D m (Mat [x] n) = Ok o -> nb_predict D m (Mat [y] n) = Ok o -> 0 <= t <= 1 -> nb_predict D m (Mat [mix t x y] n) = Ok o.
Proof.
  intros E1 E2 E3 E4 x y o t (e & HE). rewrite !(nb_one D m p prior k sc n E1 E2 E3 E4). intros (c & v & A & B) (c' & v' & A' & B') Ht.
  assert (c' = c). { destruct (one_hot_row k c) as [r| |] eqn:R1; try discriminate. destruct (one_hot_row k c') as [r'| |] eqn:R2; try discriminate. cbn in B, B'. rewrite <- B in B'. injection B' as ->. eapply one_hot_inj; eassumption. }
  subst c'. destruct (argmax_combine t e (map (sc x) (seq 0 (length prior))) (map (sc y) (seq 0 (length prior))) c) as (u & Q); [exact Ht|now rewrite !map_length|eauto|eauto|].
  exists c, u. split; [|exact B]. rewrite <- Q. f_equal. transitivity (map (fun i => t * sc x i + (1 - t) * sc y i + e) (seq 0 (length prior))).
  - apply map_ext_in. intros i Hi. apply in_seq in Hi. apply HE. lia.
  - unfold combine. clear. induction (seq 0 (length prior)) as [|i l IH]; [reflexivity|]. cbn [map map2]. now rewrite IH.
Qed.
Section Smooth.
  Variables (score : R -> list R -> list R -> R) (D : @Distribution R (Smooth R)).
  Hypothesis HD : d_joint _ D = smooth_joint score.
  Hypothesis HS : forall t pr lp x y, length x = length y -> score pr lp (mix t x y) = t * score pr lp x + (1 - t) * score pr lp y.
  Lemma smooth_convex (m : NaiveBayes R (Smooth R)) : convex_regions (nb_predict D m).
  Proof.
    intros x y o t L A. pose proof A as A0. unfold nb_predict, get_log_probs in A0. destruct (nb_distr m) as [p|] eqn:E1; [|discriminate]. destruct (nb_class_prior m) as [prior|] eqn:E2; [|discriminate].
    rewrite HD in A0. unfold smooth_joint, query in A0. cbn [mcols mrows map] in A0. destruct (_ && _) eqn:EB in A0; cbn [rassert rbind] in A0; [|discriminate].
    destruct (nb_cluster_count m) as [k|] eqn:E3; [|destruct (get_classes _); discriminate].
    revert A. unfold query. rewrite mix_length, <- L by exact L. intros A B Ht.
    eapply (nb_convex D m p prior k (fun x i => score (nth i prior nzero) (nth i (mrows (s_log_probs p)) []) x) (length x) E1 E2 E3); eauto.
    - intros z. rewrite HD. unfold smooth_joint. cbn [mcols mrows map]. rewrite EB. reflexivity.
    - exists 0. intros i _. rewrite HS by exact L. ring.
  Qed.
End Smooth.
Theorem bernoulli_convex (m : NaiveBayes R (Smooth R)) : convex_regions (nb_predict Bernoulli m).
Proof.
  apply (smooth_convex bernoulli_score); [reflexivity|]. intros t pr lp x y L. unfold bernoulli_score. cbn [nadd NumR]. rewrite dot_mix by exact L. ring.
Qed.
Theorem multinomial_convex (m : NaiveBayes R (Smooth R)) : convex_regions (nb_predict Multinomial m).
Proof.
  apply (smooth_convex multinomial_score); [reflexivity|]. intros t pr lp x y L. unfold multinomial_score. cbn [nadd NumR]. rewrite dot_mix by exact L. ring.
Qed.
Lemma gauss_quad t (x y th si : list R) : length x = length y -> length th = length x ->
  vsum (map2 ndiv (map (fun d => nmul d d) (vsub (mix t x y) th)) si) = t * vsum (map2 ndiv (map (fun d => nmul d d) (vsub x th)) si) + (1 - t) * vsum (map2 ndiv (map (fun d => nmul d d) (vsub y th)) si)
    + - (t * (1 - t)) * vsum (map2 ndiv (map (fun d => nmul d d) (vsub x y)) si).
Proof.
  rewrite !vsum_R. revert y th si. induction x as [|a x IH]; intros [|b y] [|c th] [|s si] L1 L2; try discriminate; try (cbn; ring).
  change (mix t (a :: x) (b :: y)) with ((t * a + (1 - t) * b) :: mix t x y). unfold vsub in *. cbn [map2 map rsum]. rewrite IH by (cbn in L1, L2; lia). cbn [ndiv nmul nsub NumR]. unfold Rdiv. ring.
Qed.
Theorem gaussian_convex (m : NaiveBayes R (Gauss R)) p s : nb_distr m = Some p -> mwf (g_theta p) -> (forall r, In r (mrows (g_sigma p)) -> r = s) -> convex_regions (nb_predict Gaussian m).
Proof.
  intros E1 W HS x y o t L A. pose proof A as A0. unfold nb_predict, get_log_probs in A0. rewrite E1 in A0. destruct (nb_class_prior m) as [prior|] eqn:E2; [|discriminate].
  cbn [d_joint Gaussian] in A0. unfold gauss_joint, query in A0. cbn [mcols mrows map] in A0. destruct (_ && _) eqn:EB in A0; cbn [rassert rbind] in A0; [|discriminate].
  destruct (nb_cluster_count m) as [k|] eqn:E3; [|destruct (get_classes _); discriminate].
  revert A. unfold query. rewrite mix_length, <- L by exact L. intros A B Ht.
  eapply (nb_convex Gaussian m p prior k (fun x i => gauss_score (nth i prior nzero) (nth i (mrows (g_theta p)) []) (nth i (mrows (g_sigma p)) []) x) (length x) E1 E2 E3); eauto.
  - intros z. cbn [d_joint Gaussian]. unfold gauss_joint. cbn [mcols mrows map]. rewrite EB. reflexivity.
  - exists (t * (1 - t) * vsum (map2 ndiv (map (fun d => nmul d d) (vsub x y)) s) * half). intros i Hi. apply andb_true_iff in EB as [EB EC]. apply andb_true_iff in EB as [EA EB]. apply Nat.leb_le in EA, EB.
    rewrite (HS (nth i (mrows (g_sigma p)) [])) by (apply nth_In; unfold nrows in EB; lia).
    assert (LT : length (nth i (mrows (g_theta p)) []) = length x).
    { apply orb_true_iff in EC as [EC|EC]; apply Nat.eqb_eq in EC; [lia|]. rewrite EC. unfold mwf in W. rewrite Forall_forall in W. apply W, nth_In. unfold nrows in EA. lia. }
    unfold gauss_score. rewrite (gauss_quad t x y) by auto. cbn [nadd nmul nopp NumR]. ring.
Qed.
