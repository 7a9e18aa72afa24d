From Coq Require Import List Arith Lia Bool Reals Lra Permutation.
From Verif Require Proof_KMeans Proof_KMeans3 Proof_NNet2.
From Verif Require Import Base BaseLemmas Num NumFn Linalg LinalgR MatR Model_Regression Spec_Regression Proof_Regression Model_GLM Spec_GLM Proof_GLM Proof_GLM2 Proof_GLMEx Spec_Equiv.
Import ListNotations.
Local Open Scope R_scope.

Definition is_ls (X : matrix R) (y p : list R) : Prop := length p = S (mcols X) /\ forall q, length q = S (mcols X) -> rss X y p <= rss X y q.

Definition lin (u v : R) (p q : list R) : list R := map2 (fun a b => u * a + v * b) p q.
Lemma lin_length u v p q : length p = length q -> length (lin u v p q) = length p.
Proof. revert q. induction p as [|a p IH]; intros [|b q] H; cbn in *; try lia. f_equal. apply IH. lia. Qed.
Lemma lin_nth u v p q k : length p = length q -> nth k (lin u v p q) 0 = u * nth k p 0 + v * nth k q 0.
Proof.
  revert q k. induction p as [|a p IH]; intros [|b q] k H; cbn in H; try lia; destruct k as [|k]; cbn [lin map2 nth]; try ring.
  apply IH. lia.
Qed.
Lemma affine_lin u v p q x : length p = length q -> affine (lin u v p q) x = u * affine p x + v * affine q x.
Proof.
  intros H. unfold affine. rewrite lin_nth by auto. rewrite !Rmult_plus_distr_l, <- !sumR_scal.
  replace (sumR (length x) (fun k => nth (S k) (lin u v p q) 0 * nth k x 0)) with
    (sumR (length x) (fun k => u * (nth (S k) p 0 * nth k x 0)) + sumR (length x) (fun k => v * (nth (S k) q 0 * nth k x 0))); [ring|].
  rewrite <- sumR_plus. apply sumR_ext. intros k _. rewrite lin_nth by auto. ring.
Qed.
Definition raise (c : R) (p : list R) : list R := match p with [] => [] | a :: r => a + c :: r end.
Lemma raise_length c p : length (raise c p) = length p. Proof. now destruct p. Qed.
Lemma affine_raise c p x : p <> [] -> affine (raise c p) x = affine p x + c.
Proof. intros H. destruct p as [|a r]; [congruence|]. unfold affine. cbn [raise nth]. lra. Qed.

Lemma row_in (X : matrix R) i : (i < nrows X)%nat -> In (nth i (mrows X) []) (mrows X).
Proof. intros H. apply nth_In. exact H. Qed.
Lemma ls_agree X y p q : is_ls X y p -> is_ls X y q -> forall r, In r (mrows X) -> affine p r = affine q r.
Proof.
  intros [Lp Mp] [Lq Mq] r Hr. set (m := lin (1/2) (1/2) p q). assert (Lpq : length p = length q) by lia.
  assert (Lm : length m = S (mcols X)) by (unfold m; rewrite lin_length; auto).
  pose proof (Mp q Lq) as A. pose proof (Mq p Lp) as B. pose proof (Mp m Lm) as C.
  assert (E : rss X y m + 1/4 * sumR (nrows X) (fun i => (affine p (nth i (mrows X) []) - affine q (nth i (mrows X) [])) ^ 2) = 1/2 * rss X y p + 1/2 * rss X y q).
  { unfold rss. rewrite <- !sumR_scal, <- !sumR_plus. apply sumR_ext. intros i _. unfold m. rewrite affine_lin by auto. field. }
  assert (Z : sumR (nrows X) (fun i => (affine p (nth i (mrows X) []) - affine q (nth i (mrows X) [])) ^ 2) = 0).
  { apply Rle_antisym; [lra|]. apply Rle_trans with (sumR (nrows X) (fun _ => 0)); [rewrite sumR_zero; [lra|auto]|]. apply sumR_le. intros i _. apply pow2_ge_0. }
  apply In_nth with (d := []) in Hr. destruct Hr as (i & Hi & <-).
  pose proof (Proof_KMeans3.sumR_zero_inv _ _ (fun i _ => pow2_ge_0 _) Z i Hi) as D. cbn beta in D.
  assert (affine p (nth i (mrows X) []) - affine q (nth i (mrows X) []) = 0); [|lra]. apply Rsqr_0_uniq. unfold Rsqr. lra.
Qed.
Lemma ls_determined X y p q x : is_ls X y p -> is_ls X y q -> determined X x -> affine p x = affine q x.
Proof.
  intros Hp Hq [_ D]. assert (L : length p = length q) by (destruct Hp, Hq; lia).
  assert (E : affine (lin 1 (-1) p q) x = 0).
  { apply D; [rewrite lin_length by auto; apply Hp|]. intros r Hr. rewrite affine_lin by auto. rewrite (ls_agree X y p q Hp Hq r Hr). ring. }
  rewrite affine_lin in E by auto. lra.
Qed.

(** Features. *)
Lemma rss_map f d' X y p q : mwf X -> (forall x, length x = mcols X -> affine p (f x) = affine q x) -> rss (map_rows f d' X) y p = rss X y q.
Proof.
  intros W E. unfold rss, map_rows, nrows. cbn [mrows]. rewrite map_length. apply sumR_ext. intros i Hi.
  rewrite (nth_map f (mrows X) i [] []) by auto. rewrite E; [reflexivity|]. exact (proj1 (Forall_forall _ _) W _ (nth_In _ _ Hi)).
Qed.
Lemma ls_features f d' X y p p' x : mwf X -> same_affine (mcols X) d' f -> is_ls X y p -> is_ls (map_rows f d' X) y p' -> determined X x ->
  affine p' (f x) = affine p x.
Proof.
  intros W (Lf & To & From) Hp [Lp' Mp'] D. cbn [map_rows mcols] in *. destruct (To p' Lp') as (q & Lq & Eq).
  rewrite Eq by apply D. apply (ls_determined X y); auto. split; auto. intros r Lr. destruct (From r Lr) as (r' & Lr' & Er).
  rewrite <- (rss_map f d' X y p' q W Eq), <- (rss_map f d' X y r' r W Er). auto.
Qed.

(** Targets: least squares is orthogonality of the residuals. *)
Definition orth (X : matrix R) (y p d : list R) : R := sumR (nrows X) (fun i => (nth i y 0 - affine p (nth i (mrows X) [])) * affine d (nth i (mrows X) [])).
Definition sq (X : matrix R) (d : list R) : R := sumR (nrows X) (fun i => affine d (nth i (mrows X) []) ^ 2).
Lemma rss_move X y p d s : length p = length d -> rss X y (lin 1 s p d) + 2 * s * orth X y p d = rss X y p + s ^ 2 * sq X d.
Proof.
  intros L. unfold rss, orth, sq. rewrite <- !sumR_scal, <- !sumR_plus. apply sumR_ext. intros i _. rewrite affine_lin by auto. ring.
Qed.
Lemma sq_ge0 X d : 0 <= sq X d.
Proof. apply sumR_ge0. intros i _. apply pow2_ge_0. Qed.
Lemma rss_ext X y p q : (forall i, (i < nrows X)%nat -> affine p (nth i (mrows X) []) = affine q (nth i (mrows X) [])) -> rss X y p = rss X y q.
Proof. intros H. unfold rss. apply sumR_ext. intros i Hi. now rewrite H. Qed.
Lemma ls_orth X y p : is_ls X y p <-> length p = S (mcols X) /\ forall d, length d = S (mcols X) -> orth X y p d = 0.
Proof.
  split; intros [Lp H]; split; auto.
  - intros d Ld. set (s := orth X y p d / (sq X d + 1)). pose proof (sq_ge0 X d) as N.
    assert (L : length (lin 1 s p d) = S (mcols X)) by (rewrite lin_length; lia).
    pose proof (H _ L) as M. pose proof (rss_move X y p d s ltac:(lia)) as V.
    assert (Es : orth X y p d = s * (sq X d + 1)) by (unfold s; field; lra). clearbody s. rewrite Es in *.
    assert (s ^ 2 * (sq X d + 2) <= 0) by nra. assert (s = 0) by nra. subst s. ring.
  - intros q Lq. pose proof (rss_move X y p (lin 1 (-1) q p) 1) as V. rewrite lin_length in V by lia. specialize (V ltac:(lia)).
    rewrite (H (lin 1 (-1) q p)) in V by (rewrite lin_length; lia). pose proof (sq_ge0 X (lin 1 (-1) q p)).
    rewrite (rss_ext X y (lin 1 1 p (lin 1 (-1) q p)) q) in V; [lra|]. intros i _. rewrite !affine_lin; [ring| |]; rewrite ?lin_length; lia.
Qed.
Lemma ls_targets X y1 y2 y3 u v c p1 p2 p3 x : is_ls X y1 p1 -> is_ls X y2 p2 -> is_ls X y3 p3 ->
  (forall i, (i < nrows X)%nat -> nth i y3 0 = u * nth i y1 0 + v * nth i y2 0 + c) -> determined X x ->
  affine p3 x = u * affine p1 x + v * affine p2 x + c.
Proof.
  intros H1 H2 H3 Ey D. assert (L : length p1 = length p2) by (destruct H1, H2; lia). pose proof (proj1 H1) as L1.
  assert (N : lin u v p1 p2 <> []). { intros E. apply (f_equal (@length R)) in E. rewrite lin_length in E by auto. cbn in E. lia. }
  rewrite <- affine_lin, <- affine_raise by auto.
  refine (ls_determined X y3 _ _ x H3 _ D). apply ls_orth. split; [rewrite raise_length, lin_length; lia|].
  intros d Ld. apply ls_orth in H1, H2. destruct H1 as [_ H1], H2 as [_ H2]. specialize (H1 d Ld). specialize (H2 d Ld).
  transitivity (u * orth X y1 p1 d + v * orth X y2 p2 d); [|rewrite H1, H2; ring].
  unfold orth. rewrite <- !sumR_scal, <- sumR_plus. apply sumR_ext. intros i Hi. rewrite affine_raise, affine_lin, Ey by auto. ring.
Qed.

(** Repeated data. *)
Lemma sumR_rows (l : list (list R)) (y : list R) (g : R -> list R -> R) : length y = length l ->
  sumR (length l) (fun i => g (nth i y 0) (nth i l [])) = fold_right Rplus 0 (map (fun t => g (fst t) (snd t)) (combine y l)).
Proof.
  revert y. induction l as [|r l IH]; intros [|a y] H; try discriminate; [reflexivity|]. cbn [length]. rewrite Proof_NNet2.sumR_S_l. cbn [combine map fold_right fst snd nth]. f_equal. apply IH. cbn in H. lia.
Qed.
Lemma fold_sum_app (a b : list R) : fold_right Rplus 0 (a ++ b) = fold_right Rplus 0 a + fold_right Rplus 0 b.
Proof. induction a as [|x a IH]; cbn; [ring|rewrite IH; ring]. Qed.
Lemma combine_times {A B} k (a : list A) (b : list B) : length a = length b -> combine (times k a) (times k b) = times k (combine a b).
Proof.
  intros L. unfold times. induction k as [|k IH]; [reflexivity|]. cbn [repeat concat]. rewrite <- IH. clear IH. generalize (concat (repeat a k)), (concat (repeat b k)). intros a' b'. revert b L. induction a as [|x a IH]; intros [|z b] L; try discriminate; [reflexivity|].
  cbn [app combine]. f_equal. apply IH. now injection L.
Qed.
Lemma times_length {A} k (a : list A) : length (times k a) = (k * length a)%nat.
Proof. unfold times. induction k as [|k IH]; [reflexivity|]. cbn [repeat concat]. rewrite app_length, IH. reflexivity. Qed.
Lemma times_map {A B} (f : A -> B) k a : map f (times k a) = times k (map f a).
Proof. unfold times. induction k as [|k IH]; [reflexivity|]. cbn [repeat concat]. now rewrite map_app, IH. Qed.
Lemma times_sum k a : fold_right Rplus 0 (times k a) = INR k * fold_right Rplus 0 a.
Proof. unfold times. induction k as [|k IH]; [cbn; ring|]. cbn [repeat concat]. rewrite fold_sum_app, IH, S_INR. ring. Qed.
Lemma rss_times k X y p : length y = nrows X -> rss (Mat (times k (mrows X)) (mcols X)) (times k y) p = INR k * rss X y p.
Proof.
  intros L. unfold rss, nrows. cbn [mrows]. rewrite !(sumR_rows _ _ (fun a r => (a - affine p r) ^ 2)); auto; [|rewrite !times_length; unfold nrows in L; now rewrite L].
  rewrite combine_times by auto. now rewrite times_map, times_sum.
Qed.
Lemma ls_times k X y p : (0 < k)%nat -> length y = nrows X -> is_ls (Mat (times k (mrows X)) (mcols X)) (times k y) p -> is_ls X y p.
Proof.
  intros K L [Lp H]. split; auto. intros q Lq. specialize (H q Lq). rewrite !rss_times in H by auto. apply (Rmult_le_reg_l (INR k)); auto. now apply lt_0_INR.
Qed.

(** The two concrete changes of features. *)
Definition coef (d : nat) (c : R) (g : nat -> R) : list R := c :: map g (seq 0 d).
Lemma coef_affine d c g x : length x = d -> affine (coef d c g) x = c + sumR d (fun k => g k * nth k x 0).
Proof.
  intros L. unfold affine. rewrite L. cbn [coef nth]. f_equal. apply sumR_ext. intros k Hk. f_equal.
  rewrite (nth_indep _ 0 (g 0%nat)) by (rewrite map_length, seq_length; auto). rewrite map_nth, seq_nth by auto. reflexivity.
Qed.
Lemma coef_length d c g : length (coef d c g) = S d. Proof. cbn. now rewrite map_length, seq_length. Qed.
Lemma seq_map_nth (g : nat -> R) d k : (k < d)%nat -> nth k (map g (seq 0 d)) 0 = g k.
Proof. intros H. rewrite (nth_indep _ 0 (g 0%nat)) by (rewrite map_length, seq_length; auto). now rewrite map_nth, seq_nth by auto. Qed.

Lemma units_affine d ab : length ab = d -> Forall (fun t => fst t <> 0) ab -> same_affine d d (new_units ab).
Proof.
  intros L A. set (a := fun k => fst (nth k ab (0, 0))). set (b := fun k => snd (nth k ab (0, 0))).
  assert (Ha : forall k, (k < d)%nat -> a k <> 0). { intros k Hk. unfold a. rewrite Forall_forall in A. apply A. apply nth_In. lia. }
  assert (Ln : forall x, length x = d -> length (new_units ab x) = d) by (intros x Lx; unfold new_units; rewrite map_length, seq_length; auto).
  assert (Ap : forall p x, length x = d -> affine p (new_units ab x) = nth 0 p 0 + sumR d (fun k => nth (S k) p 0 * (a k * nth k x 0 + b k))).
  { intros p x Lx. unfold affine. rewrite Ln by auto. f_equal. apply sumR_ext. intros k Hk. f_equal. unfold new_units. rewrite Lx, seq_map_nth by auto. reflexivity. }
  split; [exact Ln|]. split.
  - intros p Lp. exists (coef d (nth 0 p 0 + sumR d (fun k => nth (S k) p 0 * b k)) (fun k => nth (S k) p 0 * a k)). split; [apply coef_length|].
    intros x Lx. rewrite coef_affine, Ap, Rplus_assoc, <- sumR_plus by auto. f_equal. apply sumR_ext. intros. ring.
  - intros q Lq. exists (coef d (nth 0 q 0 + sumR d (fun k => - (nth (S k) q 0 * b k / a k))) (fun k => nth (S k) q 0 / a k)). split; [apply coef_length|].
    intros x Lx. rewrite Ap by auto. cbn [coef nth]. unfold affine. rewrite Lx, Rplus_assoc, <- sumR_plus. f_equal. apply sumR_ext. intros k Hk.
    change (nth k (map (fun k0 => nth (S k0) q 0 / a k0) (seq 0 d)) 0) with (nth k (map (fun k0 => nth (S k0) q 0 / a k0) (seq 0 d)) 0).
    rewrite (seq_map_nth (fun k0 => nth (S k0) q 0 / a k0)) by auto. field. auto.
Qed.
Lemma sumR_list (l : list nat) (g : nat -> R) : sumR (length l) (fun k => g (nth k l 0%nat)) = fold_right Rplus 0 (map g l).
Proof. induction l as [|a l IH]; [reflexivity|]. cbn [length]. rewrite Proof_NNet2.sumR_S_l. cbn [map fold_right nth]. now rewrite IH. Qed.
Lemma fold_perm (a b : list R) : Permutation a b -> fold_right Rplus 0 a = fold_right Rplus 0 b.
Proof. induction 1; cbn; lra. Qed.
Lemma sumR_perm pi d (g : nat -> R) : Permutation pi (seq 0 d) -> sumR d (fun k => g (nth k pi 0%nat)) = sumR d g.
Proof.
  intros P. pose proof (Permutation_length P) as L. rewrite seq_length in L. rewrite <- L at 1. rewrite sumR_list, (fold_perm _ _ (Permutation_map g P)).
  rewrite <- sumR_list, seq_length. apply sumR_ext. intros k Hk. now rewrite seq_nth.
Qed.
Lemma order_affine d pi : Permutation pi (seq 0 d) -> same_affine d d (new_order pi).
Proof.
  intros P. pose proof (Permutation_length P) as L. rewrite seq_length in L.
  assert (Hp : forall k, (k < d)%nat -> (nth k pi 0 < d)%nat). { intros k Hk. assert (In (nth k pi 0%nat) (seq 0 d)) by (apply (Permutation_in _ P), nth_In; lia). apply in_seq in H. lia. }
  assert (Ln : forall x : list R, length (new_order pi x) = d) by (intros x; unfold new_order; now rewrite map_length).
  assert (Ap : forall p x, affine p (new_order pi x) = nth 0 p 0 + sumR d (fun k => nth (S k) p 0 * nth (nth k pi 0%nat) x 0)).
  { intros p x. unfold affine. rewrite Ln. f_equal. apply sumR_ext. intros k Hk. f_equal. unfold new_order.
    rewrite (nth_indep _ 0 (nth 0 x 0)) by (rewrite map_length; lia). now rewrite (map_nth (fun k => nth k x 0) pi 0%nat). }
  split; [intros; apply Ln|]. split.
  - intros p Lp. exists (coef d (nth 0 p 0) (fun j => sumR d (fun k => if (nth k pi 0 =? j)%nat then nth (S k) p 0 else 0))). split; [apply coef_length|].
    intros x Lx. rewrite Ap, coef_affine by auto. f_equal.
    transitivity (sumR d (fun k => sumR d (fun j => if (nth k pi 0 =? j)%nat then nth (S k) p 0 * nth j x 0 else 0))).
    + apply sumR_ext. intros k Hk. rewrite Proof_KMeans.sumR_pick by auto. reflexivity.
    + rewrite Proof_KMeans.sumR_exch. apply sumR_ext. intros j Hj. rewrite <- sumR_scal_r. apply sumR_ext. intros k Hk. destruct (_ =? _)%nat; ring.
  - intros q Lq. exists (coef d (nth 0 q 0) (fun k => nth (S (nth k pi 0%nat)) q 0)). split; [apply coef_length|].
    intros x Lx. rewrite Ap. cbn [coef nth]. unfold affine. rewrite Lx. f_equal. rewrite <- (sumR_perm pi d (fun j => nth (S j) q 0 * nth j x 0) P).
    apply sumR_ext. intros k Hk. now rewrite (seq_map_nth (fun k0 => nth (S (nth k0 pi 0%nat)) q 0)) by auto.
Qed.

(** The models. *)
Lemma lr_ls solve self X y self' : solver_sound solve -> mwf X -> lr_train solve self X y = (self', Ok tt) -> length y = nrows X /\ exists p, lr_parameters self' = Some p /\ is_ls X y p.
Proof. intros S W H. destruct (lr_train_ls _ _ _ _ _ S W H) as (L & p & E & Lp & M). split; auto. exists p. split; auto. split; auto. Qed.
Lemma glm_ls inverse self X y self' : inverse_sound inverse -> mwf X -> glm_train inverse Normal self X y = (self', Ok tt) -> length y = nrows X /\ exists p, glm_parameters self' = Some p /\ is_ls X y p.
Proof. intros S W H. destruct (glm_normal_ls _ _ _ _ _ S W H) as (L & p & E & Lp & M). split; auto. exists p. split; auto. split; auto. Qed.
Lemma lr_says self X y p Z : lr_parameters self = Some p -> is_ls X y p -> mwf Z -> mcols Z = mcols X -> lr_predict self Z = Ok (map (affine p) (mrows Z)).
Proof. intros E [L _] W C. rewrite (lr_predict_affine self p Z E W), C, L, Nat.eqb_refl. reflexivity. Qed.
Lemma glm_says self X y p Z : glm_parameters self = Some p -> is_ls X y p -> mwf Z -> mcols Z = mcols X -> glm_predict Normal self Z = Ok (map (affine p) (mrows Z)).
Proof. intros E [L _] W C. rewrite (predict_eq Normal self p Z E W), C, L, Nat.eqb_refl. reflexivity. Qed.
Lemma map_rows_wf f d' X : mwf X -> (forall x, length x = mcols X -> length (f x) = d') -> mwf (map_rows f d' X).
Proof. intros W H. unfold mwf, map_rows. cbn. apply Forall_forall. intros r Hr. apply in_map_iff in Hr. destruct Hr as (x & <- & Hx). apply H. exact (proj1 (Forall_forall _ _) W x Hx). Qed.

Section Predictions.
  (** [says] relates a trained model to the predictions at the rows of [Z]. *)
  Context {M : Type} (params : M -> option (list R)) (predict : M -> matrix R -> res (list R)).
  Hypothesis says : forall self X y p Z, params self = Some p -> is_ls X y p -> mwf Z -> mcols Z = mcols X -> predict self Z = Ok (map (affine p) (mrows Z)).
  Lemma pred_features f d' X y Z m m' p p' : mwf X -> mwf Z -> mcols Z = mcols X -> same_affine (mcols X) d' f -> Forall (determined X) (mrows Z) ->
    params m = Some p -> is_ls X y p -> params m' = Some p' -> is_ls (map_rows f d' X) y p' ->
    exists out, predict m Z = Ok out /\ predict m' (map_rows f d' Z) = Ok out.
  Proof.
    intros W WZ C Sf D E H E' H'. exists (map (affine p) (mrows Z)). split; [now apply (says m X y)|].
    rewrite (says m' (map_rows f d' X) y p' (map_rows f d' Z) E' H'); [|apply map_rows_wf; auto; rewrite C; apply Sf|reflexivity].
    f_equal. cbn [map_rows mrows]. rewrite map_map. apply map_ext_in. intros x Hx. apply (ls_features f d' X y); auto. exact (proj1 (Forall_forall _ _) D x Hx).
  Qed.
  Lemma pred_targets X y1 y2 y3 u v c Z m1 m2 m3 p1 p2 p3 : mwf X -> mwf Z -> mcols Z = mcols X -> Forall (determined X) (mrows Z) ->
    (forall i, (i < nrows X)%nat -> nth i y3 0 = u * nth i y1 0 + v * nth i y2 0 + c) ->
    params m1 = Some p1 -> is_ls X y1 p1 -> params m2 = Some p2 -> is_ls X y2 p2 -> params m3 = Some p3 -> is_ls X y3 p3 ->
    exists o1 o2 o3, predict m1 Z = Ok o1 /\ predict m2 Z = Ok o2 /\ predict m3 Z = Ok o3 /\ length o3 = nrows Z /\
      forall i, (i < nrows Z)%nat -> nth i o3 0 = u * nth i o1 0 + v * nth i o2 0 + c.
  Proof.
    intros W WZ C D Ey E1 H1 E2 H2 E3 H3. exists (map (affine p1) (mrows Z)), (map (affine p2) (mrows Z)), (map (affine p3) (mrows Z)).
    split; [now apply (says m1 X y1)|]. split; [now apply (says m2 X y2)|]. split; [now apply (says m3 X y3)|]. split; [apply map_length|].
    intros i Hi. rewrite !(nth_map _ _ _ 0 []) by auto. apply (ls_targets X y1 y2 y3); auto. exact (proj1 (Forall_forall _ _) D _ (nth_In _ _ Hi)).
  Qed.
  Lemma pred_times k X y Z m m' p p' : mwf X -> mwf Z -> mcols Z = mcols X -> (0 < k)%nat -> length y = nrows X -> Forall (determined X) (mrows Z) ->
    params m = Some p -> is_ls X y p -> params m' = Some p' -> is_ls (Mat (times k (mrows X)) (mcols X)) (times k y) p' ->
    exists out, predict m Z = Ok out /\ predict m' Z = Ok out.
  Proof.
    intros W WZ C K L D E H E' H'. exists (map (affine p) (mrows Z)). split; [now apply (says m X y)|].
    rewrite (says m' _ _ p' Z E' H' WZ C). f_equal. apply map_ext_in. intros x Hx. apply (ls_determined X y); auto; [now apply (ls_times k)|]. exact (proj1 (Forall_forall _ _) D x Hx).
  Qed.
End Predictions.
Lemma times_wf k (X : matrix R) : mwf X -> mwf (Mat (times k (mrows X)) (mcols X)).
Proof. intros W. unfold mwf, times in *. cbn. induction k as [|k IH]; cbn; [constructor|]. apply Forall_app. auto. Qed.

Theorem lr_features solve solve' s s' f d' X y Z m m' : solver_sound solve -> solver_sound solve' -> mwf X -> mwf Z -> mcols Z = mcols X ->
  same_affine (mcols X) d' f -> Forall (determined X) (mrows Z) ->
  lr_train solve s X y = (m, Ok tt) -> lr_train solve' s' (map_rows f d' X) y = (m', Ok tt) ->
  exists out, lr_predict m Z = Ok out /\ lr_predict m' (map_rows f d' Z) = Ok out.
Proof.
  intros S S' W WZ C Sf D T T'. destruct (lr_ls _ _ _ _ _ S W T) as (_ & p & E & H). destruct (lr_ls _ _ _ _ _ S' (map_rows_wf f d' X W (proj1 Sf)) T') as (_ & p' & E' & H').
  exact (pred_features (@lr_parameters R) lr_predict lr_says f d' X y Z m m' p p' W WZ C Sf D E H E' H').
Qed.
Theorem glm_features inverse inverse' s s' f d' X y Z m m' : inverse_sound inverse -> inverse_sound inverse' -> mwf X -> mwf Z -> mcols Z = mcols X ->
  same_affine (mcols X) d' f -> Forall (determined X) (mrows Z) ->
  glm_train inverse Normal s X y = (m, Ok tt) -> glm_train inverse' Normal s' (map_rows f d' X) y = (m', Ok tt) ->
  exists out, glm_predict Normal m Z = Ok out /\ glm_predict Normal m' (map_rows f d' Z) = Ok out.
Proof.
  intros S S' W WZ C Sf D T T'. destruct (glm_ls _ _ _ _ _ S W T) as (_ & p & E & H). destruct (glm_ls _ _ _ _ _ S' (map_rows_wf f d' X W (proj1 Sf)) T') as (_ & p' & E' & H').
  exact (pred_features (@glm_parameters R) (glm_predict Normal) glm_says f d' X y Z m m' p p' W WZ C Sf D E H E' H').
Qed.
Theorem lr_targets solve X y1 y2 y3 u v c Z s1 s2 s3 m1 m2 m3 : solver_sound solve -> mwf X -> mwf Z -> mcols Z = mcols X -> Forall (determined X) (mrows Z) ->
  (forall i, (i < nrows X)%nat -> nth i y3 0 = u * nth i y1 0 + v * nth i y2 0 + c) ->
  lr_train solve s1 X y1 = (m1, Ok tt) -> lr_train solve s2 X y2 = (m2, Ok tt) -> lr_train solve s3 X y3 = (m3, Ok tt) ->
  exists o1 o2 o3, lr_predict m1 Z = Ok o1 /\ lr_predict m2 Z = Ok o2 /\ lr_predict m3 Z = Ok o3 /\ length o3 = nrows Z /\
    forall i, (i < nrows Z)%nat -> nth i o3 0 = u * nth i o1 0 + v * nth i o2 0 + c.
Proof.
  intros S W WZ C D Ey T1 T2 T3. destruct (lr_ls _ _ _ _ _ S W T1) as (_ & p1 & E1 & H1). destruct (lr_ls _ _ _ _ _ S W T2) as (_ & p2 & E2 & H2). destruct (lr_ls _ _ _ _ _ S W T3) as (_ & p3 & E3 & H3).
  exact (pred_targets (@lr_parameters R) lr_predict lr_says X y1 y2 y3 u v c Z m1 m2 m3 p1 p2 p3 W WZ C D Ey E1 H1 E2 H2 E3 H3).
Qed.
Theorem glm_targets inverse X y1 y2 y3 u v c Z s1 s2 s3 m1 m2 m3 : inverse_sound inverse -> mwf X -> mwf Z -> mcols Z = mcols X -> Forall (determined X) (mrows Z) ->
  (forall i, (i < nrows X)%nat -> nth i y3 0 = u * nth i y1 0 + v * nth i y2 0 + c) ->
  glm_train inverse Normal s1 X y1 = (m1, Ok tt) -> glm_train inverse Normal s2 X y2 = (m2, Ok tt) -> glm_train inverse Normal s3 X y3 = (m3, Ok tt) ->
  exists o1 o2 o3, glm_predict Normal m1 Z = Ok o1 /\ glm_predict Normal m2 Z = Ok o2 /\ glm_predict Normal m3 Z = Ok o3 /\ length o3 = nrows Z /\
    forall i, (i < nrows Z)%nat -> nth i o3 0 = u * nth i o1 0 + v * nth i o2 0 + c.
Proof.
  intros S W WZ C D Ey T1 T2 T3. destruct (glm_ls _ _ _ _ _ S W T1) as (_ & p1 & E1 & H1). destruct (glm_ls _ _ _ _ _ S W T2) as (_ & p2 & E2 & H2). destruct (glm_ls _ _ _ _ _ S W T3) as (_ & p3 & E3 & H3).
  exact (pred_targets (@glm_parameters R) (glm_predict Normal) glm_says X y1 y2 y3 u v c Z m1 m2 m3 p1 p2 p3 W WZ C D Ey E1 H1 E2 H2 E3 H3).
Qed.
Theorem lr_times solve solve' k X y Z s s' m m' : solver_sound solve -> solver_sound solve' -> mwf X -> mwf Z -> mcols Z = mcols X -> (0 < k)%nat -> Forall (determined X) (mrows Z) ->
  lr_train solve s X y = (m, Ok tt) -> lr_train solve' s' (Mat (times k (mrows X)) (mcols X)) (times k y) = (m', Ok tt) ->
  exists out, lr_predict m Z = Ok out /\ lr_predict m' Z = Ok out.
Proof.
  intros S S' W WZ C K D T T'. destruct (lr_ls _ _ _ _ _ S W T) as (L & p & E & H). destruct (lr_ls _ _ _ _ _ S' (times_wf k X W) T') as (_ & p' & E' & H').
  exact (pred_times (@lr_parameters R) lr_predict lr_says k X y Z m m' p p' W WZ C K L D E H E' H').
Qed.
Lemma training_rows_determined X x : mwf X -> In x (mrows X) -> determined X x.
Proof. intros W H. split; [exact (proj1 (Forall_forall _ _) W x H)|auto]. Qed.
