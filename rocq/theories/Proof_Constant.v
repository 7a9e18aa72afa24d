(** What models make of a constant target (C192). *)
From Coq Require Import List Arith Lia Bool Reals Lra.
From Verif Require Import Base BaseLemmas Num NumX NumFn NumSign Linalg LinalgR Spec_Calc CalcR MatR Model_Regression Spec_Regression Proof_Regression Proof_RegressionEx
  Model_GLM Spec_GLM Proof_GLM Proof_GLM2 Proof_GLMEx Spec_Equiv Proof_Equiv Proof_EquivEx Model_KNN Spec_KNN Proof_KNNVote Model_Kernel Model_SVM Spec_SVM Proof_SVM Proof_SVM2 Proof_SVMEx Proof_SwapSVM.
From Verif Require Proof_KMeans Proof_KMeans3 Proof_EM.
Import ListNotations.
Local Open Scope R_scope.

Lemma repeat_by_nth {A} (l : list A) n c d : length l = n -> (forall i, (i < n)%nat -> nth i l d = c) -> l = repeat c n.
Proof.
  intros L H. apply (nth_ext _ _ d d); [now rewrite repeat_length|]. rewrite L. intros i Hi. rewrite H by auto. symmetry. now apply nth_repeat_lt.
Qed.
Theorem lr_constant solve X c Z s m : solver_sound solve -> mwf X -> mwf Z -> mcols Z = mcols X -> Forall (determined X) (mrows Z) ->
  lr_train solve s X (repeat c (nrows X)) = (m, Ok tt) -> lr_predict m Z = Ok (repeat c (nrows Z)).
Proof.
  intros S W WZ C D T.
  assert (Q : forall i, (i < nrows X)%nat -> nth i (repeat c (nrows X)) 0 = 0 * nth i (repeat c (nrows X)) 0 + 0 * nth i (repeat c (nrows X)) 0 + c).
  { intros i Hi. rewrite nth_repeat_lt by auto. ring. }
  destruct (lr_targets solve X _ _ _ 0 0 c Z _ _ _ _ _ _ S W WZ C D Q T T T) as (o1 & o2 & o3 & _ & _ & E & L & H).
  rewrite E. f_equal. apply (repeat_by_nth _ _ _ 0 L). intros i Hi. rewrite H by auto. ring.
Qed.
Theorem normal_constant inverse X c Z s m : inverse_sound inverse -> mwf X -> mwf Z -> mcols Z = mcols X -> Forall (determined X) (mrows Z) ->
  glm_train inverse Normal s X (repeat c (nrows X)) = (m, Ok tt) -> glm_predict Normal m Z = Ok (repeat c (nrows Z)).
Proof.
  intros S W WZ C D T.
  assert (Q : forall i, (i < nrows X)%nat -> nth i (repeat c (nrows X)) 0 = 0 * nth i (repeat c (nrows X)) 0 + 0 * nth i (repeat c (nrows X)) 0 + c).
  { intros i Hi. rewrite nth_repeat_lt by auto. ring. }
  destruct (glm_targets inverse X _ _ _ 0 0 c Z _ _ _ _ _ _ S W WZ C D Q T T T) as (o1 & o2 & o3 & _ & _ & E & L & H).
  rewrite E. f_equal. apply (repeat_by_nth _ _ _ 0 L). intros i Hi. rewrite H by auto. ring.
Qed.
Definition flat (c : R) (d : nat) : list R := c :: repeat 0 d.
Lemma flat_affine c d x : affine (flat c d) x = c.
Proof.
  unfold affine, flat. cbn [nth]. rewrite BaseLemmas.sumR_zero; [ring|]. intros k _. destruct (Nat.lt_ge_cases k d); [rewrite nth_repeat_lt by auto|rewrite nth_overflow by (rewrite repeat_length; lia)]; ring.
Qed.
Theorem poisson_constant inverse X c Z s m : inverse_sound inverse -> mwf X -> mwf Z -> mcols Z = mcols X -> Forall (determined X) (mrows Z) -> 1 / 10 ^ 10 <= c ->
  glm_train inverse Poisson s X (repeat c (nrows X)) = (m, Ok tt) -> glm_predict Poisson m Z = Ok (repeat (exp c) (nrows Z)) /\ c < exp c.
Proof.
  intros S W WZ C D Hc T. split; [|pose proof (exp_ineq1_le c); lra].
  assert (c0 : 0 < c). { apply Rlt_le_trans with (1 / 10 ^ 10); [|exact Hc]. apply Rdiv_lt_0_compat; [lra|apply pow_lt; lra]. }
  assert (H0 : forall i, (i < length (repeat c (nrows X)))%nat -> 1 / 10 ^ 10 <= nth i (repeat c (nrows X)) 0).
  { intros i Hi. rewrite repeat_length in Hi. rewrite nth_repeat_lt by auto. exact Hc. }
  destruct (glm_poisson_wls inverse s X _ m S W H0 T) as (_ & p & Ep & Lp & M).
  assert (W0 : wrss (repeat c (nrows X)) X (repeat c (nrows X)) p <= 0).
  { apply Rle_trans with (1 := M (flat c (mcols X)) ltac:(unfold flat; cbn; now rewrite repeat_length)). unfold wrss. right. apply BaseLemmas.sumR_zero. intros i Hi.
    rewrite flat_affine, nth_repeat_lt by auto. ring. }
  assert (F : forall i, (i < nrows X)%nat -> affine p (nth i (mrows X) []) = c).
  { intros i Hi. assert (Q : c * (c - affine p (nth i (mrows X) [])) ^ 2 = 0).
    { apply (Proof_KMeans3.sumR_zero_inv (nrows X) (fun i => c * (c - affine p (nth i (mrows X) [])) ^ 2)); [| |exact Hi].
      - intros k _. apply Rmult_le_pos; [lra|apply pow2_ge_0].
      - apply Rle_antisym. 2:{ apply sumR_ge0. intros k _. apply Rmult_le_pos; [lra|apply pow2_ge_0]. }
        apply Rle_trans with (2 := W0). right. unfold wrss. apply sumR_ext. intros k Hk. now rewrite nth_repeat_lt by auto. }
    apply Rmult_integral in Q. destruct Q as [Q|Q]; [lra|]. assert (c - affine p (nth i (mrows X) []) = 0); [|lra]. apply Rsqr_0_uniq. unfold Rsqr. lra. }
  assert (G : forall x, determined X x -> affine p x = c).
  { intros x [Lx Dx]. assert (Lf : length p = length (flat c (mcols X))) by (unfold flat; cbn; now rewrite repeat_length).
    assert (E : affine (lin 1 (-1) p (flat c (mcols X))) x = 0).
    { apply Dx; [rewrite lin_length by auto; auto|]. intros r Hr. rewrite affine_lin, flat_affine by auto. destruct (In_nth _ _ [] Hr) as (i & Hi & <-). rewrite F by exact Hi. ring. }
    rewrite affine_lin, flat_affine in E by auto. lra. }
  rewrite (predict_eq Poisson m p Z Ep WZ). rewrite Lp, C, Nat.eqb_refl. f_equal. apply (repeat_by_nth _ _ _ 0); [apply map_length|].
  intros i Hi. rewrite (nth_map _ _ _ _ []) by exact Hi. rewrite G; [reflexivity|]. rewrite Forall_forall in D. apply D, nth_In. exact Hi.
Qed.
Theorem knn_constant (F S : Type) (s_search : S -> list F -> nat -> res (list nat * list F)) (c : KNNClassifier S) l n inputs :
  knn_target _ c = Some (repeat l n) ->
  (forall row, In row (mrows inputs) -> exists idx ds, s_search (knn_searcher _ c) row (knn_k _ c) = Ok (idx, ds) /\ idx <> [] /\ (forall i, In i idx -> (i < n)%nat)) ->
  knn_predict s_search c inputs = Ok (repeat l (nrows inputs)).
Proof.
  intros T H. destruct (predict_spec s_search c _ inputs T) as (out & E & V). { intros row Hr. rewrite repeat_length. auto. }
  rewrite E. f_equal. unfold nrows. assert (A : forall row, In row (mrows inputs) -> forall idx ds, s_search (knn_searcher _ c) row (knn_k _ c) = Ok (idx, ds) -> forall i, In i idx -> (i < n)%nat).
  { intros row Hr idx ds Es. destruct (H row Hr) as (idx' & ds' & Es' & _ & B). rewrite Es in Es'. injection Es' as -> ->. exact B. }
  clear E H T. induction V as [|row o rows out (idx & ds & Es & Vo) V IH]; [reflexivity|]. cbn [length repeat]. f_equal.
  - destruct Vo as [Vi _]. apply in_map_iff in Vi. destruct Vi as (i & <- & Hi). apply nth_repeat_lt. apply (A row (or_introl eq_refl) idx ds Es i Hi).
  - apply IH. intros r Hr. apply A. now right.
Qed.

Lemma hits_first test i t draws : test t i = true -> (1 <= hits test i t (i :: draws))%nat.
Proof. intros H. cbn [hits]. rewrite Nat.eqb_refl, H. cbn. lia. Qed.
Theorem svm_constant_target (ker : Kernel X) k (self self' : SVM X) D lambda y : mwf D -> finite_kernel ker k (S (mcols D)) -> svm_lambda self = Fin lambda -> 0 < lambda ->
  (0 < svm_optim_iters self)%nat -> (forall u v, 0 < k u v) -> y = 1 \/ y = -1 ->
  outcome (svm_train ker self D (map Fin (repeat y (nrows D)))) (Some self') ->
  forall P, mwf P -> mcols P = mcols D -> svm_predict ker self' P = Ok (repeat (Fin y) (nrows P)).
Proof.
  intros W Hk El L0 I Kp Hy H P WP CP. assert (Ly : length (repeat y (nrows D)) = nrows D) by apply repeat_length.
  destruct (svm_predict_sign ker k self self' D _ lambda W Hk El L0 Ly I P H WP CP) as (a & out & Ea & La & Ep & Lo & Ho).
  destruct (svm_coefficients ker (fun u v => Fin (k u v)) self self' D _ W Hk I H) as (b & Eb & Lb & Fb & _).
  assert (a = b) by (apply fin_inj; congruence). subst b. rewrite Ep. f_equal. apply (repeat_by_nth _ _ _ NaN Lo). intros i Hi. rewrite Ho by exact Hi. clear Ho Ep.
  assert (Ex : expansion k D a (repeat y (nrows D)) (lifted P i) = y * sumR (nrows D) (fun j => nth j a 0 * k (lifted P i) (lifted D j))).
  { unfold expansion. rewrite <- sumR_scal. apply sumR_ext. intros j Hj. rewrite nth_repeat_lt by auto. ring. }
  rewrite Ex. set (s := sumR _ _). rewrite Forall_forall in Fb.
  assert (T : forall j, (j < nrows D)%nat -> 0 <= nth j a 0 * k (lifted P i) (lifted D j)).
  { intros j Hj. pose proof (Kp (lifted P i) (lifted D j)). apply Rmult_le_pos; [|lra]. apply Fb, nth_In. lia. }
  assert (s0 : 0 <= s) by (apply sumR_ge0; exact T).
  destruct Hy as [-> | ->]; [destruct (Rlt_dec (1 * s) 0); [exfalso; lra|reflexivity]|].
  destruct (Rlt_dec (-1 * s) 0) as [|NL]; [reflexivity|exfalso]. assert (Z : s = 0) by lra.
  destruct (svm_share ker k self self' D _ lambda W Hk El L0 Ly I H) as (draws & Ld & Fd & Eh & _).
  destruct draws as [|d draws]; [cbn in Ld; lia|]. inversion Fd as [|? ? Hd _]; subst.
  pose proof (Proof_KMeans3.sumR_zero_inv _ _ T Z d Hd) as Zd. cbv beta in Zd. apply Rmult_integral in Zd. destruct Zd as [Zd|Zd]; [|pose proof (Kp (lifted P i) (lifted D d)); lra].
  assert (Ed : nth d a 0 = INR (hits (short_margin k lambda D (repeat (-1)%R (nrows D))) d 0 (d :: draws)) / INR (svm_optim_iters self)).
  { assert (Q : map Fin a = map Fin (map (fun j => INR (hits (short_margin k lambda D (repeat (-1)%R (nrows D))) j 0 (d :: draws)) / INR (svm_optim_iters self)) (seq 0 (nrows D)))) by (rewrite map_map; congruence).
    apply fin_inj in Q. rewrite Q. now rewrite nth_map_seq by auto. }
  assert (Ht : (1 <= hits (short_margin k lambda D (repeat (-1)%R (nrows D))) d 0 (d :: draws))%nat).
  { apply hits_first. unfold short_margin. rewrite nth_repeat_lt by auto. cbn [INR]. rewrite Rmult_0_r.
    assert (0 < sumR (nrows D) (fun j => k (lifted D d) (lifted D j))) by (apply Proof_EM.sumR_pos; [lia|auto]). destruct (Rlt_dec _ 0); [reflexivity|exfalso; lra]. }
  rewrite Zd in Ed. assert (0 < INR (hits (short_margin k lambda D (repeat (-1)%R (nrows D))) d 0 (d :: draws)) / INR (svm_optim_iters self)); [|lra].
  apply Rdiv_lt_0_compat; apply lt_0_INR; lia.
Qed.

(** Cases. *)
Lemma flat_cases : (exists m, lr_train cramer2 lr_default celsius (repeat 7 (nrows celsius)) = (m, Ok tt)) /\ Forall (determined celsius) [[10]; [3]] /\
  (exists self', outcome (svm_train kone (svm_cfg 5) SD (map Fin (repeat (-1)%R (nrows SD)))) (Some self')).
Proof. split; [exact (celsius_train 7 7 7)|]. split; [exact celsius_determined|]. apply svm_ex. cbn. lia. Qed.
Lemma poisson_flat : exists m, glm_train inverse2 Poisson glm_new X01 (repeat 1 (nrows X01)) = (m, Ok tt).
Proof.
  unfold glm_train. cbn [nrows X01 mrows length repeat]. rewrite poisson_init.
  2:{ intros [|[|i]] Hi; cbn in Hi; try lia; cbn [nth]; apply (Rmult_le_reg_r (10 ^ 10)); try (apply pow_lt; lra); unfold Rdiv; rewrite Rmult_assoc, Rinv_l; try lra. }
  cbn [negb Nat.eqb]. cbn [glm_loop].
  destruct (pass1 [1; 1] 1 1 1 1 Poisson ltac:(lra) ltac:(lra) eq_refl [1; 1]) as [b [mu [z [P [Eb [Em Ez]]]]]].
  fold X01. rewrite P. cbn [rbind]. subst b.
  assert (Ey : z = [1; 1]). { rewrite Ez. cbn. list_eq; lra. }
  match goal with |- context [if ?t then _ else _] => replace t with false end.
  2:{ symmetry. apply Proof_KMeans.nltb_R_false. rewrite tiny_R. rewrite diff_pos. cbn [repeat mcols X01 vsub map2 nsub NumR nzero map fold_left].
      rewrite (Rabs_left (0 - 1)) by lra. replace (0 - (1 - 1)) with 0 by ring. rewrite Rabs_R0. lra. }
  subst mu z. rewrite Ey.
  assert (Wp : cr_working_weight Poisson (map (lk_inv (cr_link Poisson)) [1; 1]) = Ok [exp 1; exp 1]) by reflexivity.
  destruct (pass1 (map (lk_inv (cr_link Poisson)) [1; 1]) 1 1 (exp 1) (exp 1) Poisson (exp_pos _) (exp_pos _) Wp [1; 1]) as [b [mu [z [P2 [Eb2 _]]]]].
  rewrite P2. cbn [rbind]. subst b. rewrite diff_self.
  match goal with |- context [if ?t then _ else _] => replace t with true end. 2:{ symmetry. apply Proof_KMeans.nltb_R'. apply tiny_pos. }
  eexists. reflexivity.
Qed.
