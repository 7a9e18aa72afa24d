From Coq Require Import List Arith Lia Bool Reals Lra.
From Verif Require Import Base BaseLemmas Num NumX NumFn NumSign Proof_Toolkit Linalg LinalgR MatR CalcR Model_Optim Model_Regression Model_Kernel Model_GP Proof_Optim Proof_Standardize Model_SVM Spec_SVM Proof_SVM Proof_GLM2.
Import ListNotations.
Local Open Scope R_scope.

Section Finite.
  Variables (ker : Kernel X) (k : list X -> list X -> R) (self self' : SVM X) (D : matrix X) (y : list R) (lambda : R).
  Hypothesis W : mwf D.
  Hypothesis Hk : finite_kernel ker k (S (mcols D)).
  Hypothesis Hl : svm_lambda self = Fin lambda.
  Hypothesis Lp : 0 < lambda.
  Hypothesis Ly : length y = nrows D.
  Hypothesis It : (0 < svm_optim_iters self)%nat.
  Let kf := fun u v => Fin (k u v).

  Lemma nth_lifted i : (i < nrows D)%nat -> nth i (mrows (with_ones D)) [] = lifted D i.
  Proof. intros H. unfold with_ones. cbn [mrows]. rewrite (nth_map (cons nonev) (mrows D) i [] []); auto. Qed.

  Lemma rows_lifted {A} (f : list X -> A) : map f (mrows (with_ones D)) = map (fun j => f (lifted D j)) (seq 0 (nrows D)).
  Proof.
    unfold with_ones. cbn [mrows]. rewrite map_map. unfold nrows, lifted.
    apply (nth_ext _ _ (f []) (f [])); [now rewrite !map_length, seq_length|]. rewrite map_length. intros i Hi.
    rewrite (nth_map (fun x => f (nonev :: x)) _ i _ []) by auto. now rewrite nth_map_seq.
  Qed.

  Lemma vsum_map_Fin {A} (f : A -> R) l : vsum (map (fun a => Fin (f a)) l) = Fin (vsum (map f l)).
  Proof. rewrite <- (map_map f Fin), xvsum_fin, vsum_R. reflexivity. Qed.

  Lemma vsum_seq (f : nat -> R) n : vsum (map f (seq 0 n)) = sumR n f.
  Proof.
    rewrite vsum_R. induction n as [|n IH]; [reflexivity|]. rewrite seq_S, map_app, rsum_app, IH. cbn. ring.
  Qed.

  Lemma test_short t i : (i < nrows D)%nat -> code_test kf (svm_lambda self) (mrows (with_ones D)) (map Fin y) t i = short_margin k lambda D y t i.
  Proof.
    intros Hi. unfold code_test, short_margin. rewrite nth_lifted by auto. rewrite rows_lifted. unfold kf. rewrite vsum_map_Fin, vsum_seq, Hl.
    rewrite (nth_map Fin y i nzero 0) by lia. set (s := sumR _ _). cbn [nltb nmul ndiv nofnat nonev NumXI xmul xdiv].
    pose proof (pos_INR t). destruct (Req_EM_T (lambda * INR t) 0) as [Z|Z].
    - rewrite Z. unfold sgn_inf. destruct (Rlt_dec 0 (s * nth i y 0)); destruct (Rlt_dec (s * nth i y 0) 0); cbn [xltb]; destruct (Rlt_dec (nth i y 0 * s) 0); auto; exfalso; lra.
    - assert (P : 0 < lambda * INR t) by (pose proof (Rmult_le_pos lambda (INR t)); lra).
      cbn [xltb]. destruct (Rlt_dec (s * nth i y 0 / (lambda * INR t)) 1) as [A|A]; destruct (Rlt_dec (nth i y 0 * s) (lambda * INR t)) as [B|B]; auto; exfalso.
      + apply B. apply (Rmult_lt_compat_r (lambda * INR t)) in A; auto. unfold Rdiv in A. rewrite Rmult_assoc, Rinv_l in A by auto. lra.
      + apply A. apply (Rmult_lt_reg_r (lambda * INR t)); auto. unfold Rdiv. rewrite Rmult_assoc, Rinv_l by auto. lra.
  Qed.

  Lemma hits_ext p q j n : (forall t i, (i < n)%nat -> p t i = q t i) -> forall draws t, Forall (fun i => (i < n)%nat) draws -> hits p j t draws = hits q j t draws.
  Proof.
    intros E draws. induction draws as [|i draws IH]; intros t Fd; [reflexivity|]. inversion Fd; subst. cbn [hits]. rewrite E, IH by auto. reflexivity.
  Qed.

  Theorem svm_share : outcome (svm_train ker self D (map Fin y)) (Some self') ->
    exists draws, length draws = svm_optim_iters self /\ Forall (fun i => (i < nrows D)%nat) draws /\
      svm_alpha self' = Some (map (fun j => Fin (INR (hits (short_margin k lambda D y) j 0 draws) / INR (svm_optim_iters self))) (seq 0 (nrows D))) /\
      svm_train_inputs self' = Some (with_ones D) /\ svm_train_targets self' = Some (map Fin y) /\ svm_lambda self' = Fin lambda.
  Proof.
    intros H. destruct (svm_train_out ker kf self D _ _ W Hk H) as [[E _]|(draws & al & s & E & Ld & Fd & Ea & La & Hn & Ei & Et & El & _)]; [discriminate|].
    injection E as <-. exists draws. repeat split; auto; [|congruence]. rewrite Ea. f_equal. apply (list_as_map al _ _ nzero La). intros j Hj.
    rewrite (Hn j Hj), ones_X. cbn [ndiv nofnat NumXI xdiv]. assert (Ip : 0 < INR (svm_optim_iters self)) by (apply lt_0_INR; lia).
    destruct (Req_EM_T _ _); [lra|]. do 3 f_equal. apply (hits_ext _ _ _ (nrows D)); auto. intros t i Hi. now apply test_short.
  Qed.

  Theorem svm_predict_sign P : outcome (svm_train ker self D (map Fin y)) (Some self') -> mwf P -> mcols P = mcols D ->
    exists a out, svm_alpha self' = Some (map Fin a) /\ length a = nrows D /\ svm_predict ker self' P = Ok out /\ length out = nrows P /\
      forall i, (i < nrows P)%nat -> nth i out NaN = if Rlt_dec (expansion k D a y (lifted P i)) 0 then Fin (-1) else Fin 1.
  Proof.
    intros H WP CP. destruct (svm_share H) as (draws & Ld & Fd & Ea & Ei & Et & El).
    set (a := map (fun j => INR (hits (short_margin k lambda D y) j 0 draws) / INR (svm_optim_iters self)) (seq 0 (nrows D))).
    assert (Ea' : svm_alpha self' = Some (map Fin a)) by (rewrite Ea; unfold a; now rewrite map_map). clear Ea.
    assert (La : length a = nrows D) by (unfold a; now rewrite map_length, seq_length).
    exists a. eexists. split; [exact Ea'|]. split; [exact La|].
    assert (C1 : mcols (with_ones D) = S (mcols P)) by (cbn; congruence).
    split; [apply (svm_predict_val ker kf self' (map Fin a) (with_ones D) (map Fin y) P); [exact WP|now apply with_ones_wf|exact C1|exact Hk|exact Ea'|exact Ei|exact Et|rewrite map_length, with_ones_nrows; auto|rewrite map_length, with_ones_nrows; auto]|].
    split; [apply map_length|]. intros i Hi. rewrite (nth_map _ (mrows P) i NaN []) by auto.
    rewrite rows_lifted. rewrite El. unfold velemul, kf.
    assert (Ew : map (fun w => ndiv w (Fin lambda)) (map2 nmul (map Fin a) (map Fin y)) = map Fin (map (fun j => nth j a 0 * nth j y 0 / lambda) (seq 0 (nrows D)))).
    { rewrite map_map. apply (nth_ext _ _ NaN NaN).
      - rewrite map_length, map2_length, !map_length, seq_length. lia.
      - rewrite map_length, map2_length, !map_length. intros j Hj. rewrite nth_map_seq by lia.
        rewrite (nth_map _ _ _ _ NaN) by (rewrite map2_length, !map_length; lia). rewrite (map2_nth _ _ _ _ NaN NaN NaN) by (rewrite map_length; lia).
        rewrite !(nth_map Fin _ _ _ 0) by lia. cbn [nmul ndiv NumXI xmul xdiv]. destruct (Req_EM_T lambda 0); [lra|reflexivity]. }
    rewrite Ew. change (nonev :: nth i (mrows P) []) with (lifted P i).
    change (map (fun j => Fin (k (lifted P i) (lifted D j))) (seq 0 (nrows D))) with (map (fun j => Fin ((fun j => k (lifted P i) (lifted D j)) j)) (seq 0 (nrows D))).
    rewrite <- (map_map (fun j => k (lifted P i) (lifted D j)) Fin), xdot_fin, nsignum_X.
    rewrite (dot_sumR (nrows D)) by now rewrite map_length, seq_length.
    assert (E : expansion k D a y (lifted P i) = lambda * sumR (nrows D) (fun j => nth j (map (fun j => k (lifted P i) (lifted D j)) (seq 0 (nrows D))) 0 * nth j (map (fun j => nth j a 0 * nth j y 0 / lambda) (seq 0 (nrows D))) 0)).
    { unfold expansion. rewrite <- sumR_scal. apply sumR_ext. intros j Hj. rewrite !nth_map_seq by auto. field. lra. }
    rewrite E. set (s := sumR _ _). destruct (Rlt_dec s 0) as [A|A]; destruct (Rlt_dec (lambda * s) 0) as [B|B]; auto; exfalso.
    - apply B. rewrite <- (Rmult_0_r lambda). now apply Rmult_lt_compat_l.
    - apply A. apply (Rmult_lt_reg_l lambda); lra.
  Qed.

  Theorem svm_ignored i : outcome (svm_train ker self D (map Fin y)) (Some self') -> (i < nrows D)%nat ->
    lambda * INR (svm_optim_iters self - 1) <= nth i y 0 * sumR (nrows D) (fun j => k (lifted D i) (lifted D j)) ->
    exists a, svm_alpha self' = Some (map Fin a) /\ nth i a 0 = 0.
  Proof.
    intros H Hi Hm. destruct (svm_share H) as (draws & Ld & Fd & Ea & _).
    exists (map (fun j => INR (hits (short_margin k lambda D y) j 0 draws) / INR (svm_optim_iters self)) (seq 0 (nrows D))).
    rewrite map_map. split; auto. rewrite nth_map_seq by auto.
    enough (E : hits (short_margin k lambda D y) i 0 draws = 0%nat) by (rewrite E; unfold Rdiv; cbn; ring).
    assert (G : forall dr t, (t + length dr <= svm_optim_iters self)%nat -> hits (short_margin k lambda D y) i t dr = 0%nat).
    { induction dr as [|j dr IH]; intros t Ht; [reflexivity|]. cbn [hits length] in *. rewrite IH by lia.
      destruct (Nat.eqb_spec j i) as [->|]; [|reflexivity]. cbn [andb]. unfold short_margin. destruct (Rlt_dec _ _) as [A|]; [|reflexivity]. exfalso.
      assert (INR t <= INR (svm_optim_iters self - 1)) by (apply le_INR; lia). pose proof (Rmult_le_compat_l lambda _ _ ltac:(lra) H0). lra. }
    apply G. lia.
  Qed.
End Finite.

Lemma sumR_neg n f : (forall j, (j < n)%nat -> f j <= 0) -> (exists j, (j < n)%nat /\ f j < 0) -> sumR n f < 0.
Proof.
  induction n as [|n IH]; intros H [j [Hj Hn]]; [lia|]. cbn [sumR].
  assert (S0 : sumR n f <= 0). { clear -H. induction n as [|n IH]; [cbn; lra|]. cbn [sumR]. pose proof (H n ltac:(lia)). assert (sumR n f <= 0) by (apply IH; intros; apply H; lia). lra. }
  destruct (Nat.eq_dec j n) as [->|Ne]; [lra|]. assert (sumR n f < 0) by (apply IH; [intros; apply H; lia|exists j; split; auto; lia]).
  pose proof (H n ltac:(lia)). lra.
Qed.
Lemma sumR_zero n f : (forall j, (j < n)%nat -> f j = 0) -> sumR n f = 0.
Proof. intros H. induction n as [|n IH]; [reflexivity|]. cbn [sumR]. rewrite IH, H by (intros; try apply H; lia). ring. Qed.

Lemma map_Fin_inj (l l' : list R) : map Fin l = map Fin l' -> l = l'.
Proof. revert l'; induction l as [|a l IH]; intros [|b l'] E; try discriminate; [reflexivity|]. cbn in E. injection E as E1 E2. f_equal; auto. Qed.
Theorem svm_constant ker k (self self' : SVM X) D y lambda : mwf D -> finite_kernel ker k (S (mcols D)) -> svm_lambda self = Fin lambda -> 0 < lambda ->
  length y = nrows D -> (0 < svm_optim_iters self)%nat -> (forall u v, 0 < k u v) ->
  (forall i, (i < nrows D)%nat -> 0 < nth i y 0 ->
     lambda * INR (svm_optim_iters self - 1) <= nth i y 0 * sumR (nrows D) (fun j => k (lifted D i) (lifted D j))) ->
  outcome (svm_train ker self D (map Fin y)) (Some self') ->
  exists c, forall P, mwf P -> mcols P = mcols D -> svm_predict ker self' P = Ok (repeat c (nrows P)).
Proof.
  intros W Hk Hl Lp Ly It Pos Big H.
  destruct (svm_share ker k self self' D y lambda W Hk Hl Lp Ly It H) as (draws & Ld & Fd & Ea & _).
  set (a := map (fun j => INR (hits (short_margin k lambda D y) j 0 draws) / INR (svm_optim_iters self)) (seq 0 (nrows D))).
  assert (Ea' : svm_alpha self' = Some (map Fin a)) by (rewrite Ea; unfold a; now rewrite map_map).
  assert (Ip : 0 < INR (svm_optim_iters self)) by (apply lt_0_INR; lia).
  assert (Sg : forall j, (j < nrows D)%nat -> nth j a 0 * nth j y 0 <= 0).
  { intros j Hj. assert (A0 : 0 <= nth j a 0).
    { unfold a. rewrite nth_map_seq by auto. apply Rmult_le_pos; [apply pos_INR|]. left. now apply Rinv_0_lt_compat. }
    destruct (Rle_dec (nth j y 0) 0) as [Ny|Py]; [nra|].
    destruct (svm_ignored ker k self self' D y lambda W Hk Hl Lp Ly It j H Hj) as (a' & E & Z); [apply Big; auto; lra|].
    rewrite Ea' in E. injection E as E. apply map_Fin_inj in E. subst a'. rewrite Z. lra. }
  assert (Dec : (exists j, (j < nrows D)%nat /\ nth j a 0 * nth j y 0 < 0) \/ forall j, (j < nrows D)%nat -> nth j a 0 * nth j y 0 = 0).
  { clearbody a. clear -Sg. induction (nrows D) as [|n IH]; [right; intros; lia|].
    destruct IH as [(j & Hj & Hn)|Z]; [intros; apply Sg; lia|left; exists j; split; auto; lia|].
    destruct (Rlt_dec (nth n a 0 * nth n y 0) 0); [left; exists n; auto|]. right. intros j Hj. destruct (Nat.eq_dec j n) as [->|]; [|apply Z; lia].
    pose proof (Sg n ltac:(lia)). lra. }
  assert (Cst : exists c, forall x, (if Rlt_dec (expansion k D a y x) 0 then Fin (-1) else Fin 1) = c).
  { unfold expansion. destruct Dec as [(j & Hj & Hn)|Z].
    - exists (Fin (-1)). intros x. destruct (Rlt_dec _ 0) as [|N]; [reflexivity|]. exfalso. apply N. apply sumR_neg.
      + intros j' Hj'. pose proof (Sg j' Hj'). pose proof (Pos x (lifted D j')). nra.
      + exists j. split; auto. pose proof (Pos x (lifted D j)). nra.
    - exists (Fin 1). intros x. destruct (Rlt_dec _ 0) as [N|]; [|reflexivity]. exfalso. rewrite sumR_zero in N; [lra|]. intros j Hj. rewrite Z by auto. ring. }
  destruct Cst as [c Hc]. exists c. intros P WP CP.
  destruct (svm_predict_sign ker k self self' D y lambda W Hk Hl Lp Ly It P H WP CP) as (a2 & out & E & _ & Ep & Lo & Ho).
  rewrite Ea' in E. injection E as E. apply map_Fin_inj in E. subst a2. rewrite Ep. f_equal.
  apply (nth_ext _ _ NaN NaN); [now rewrite repeat_length|]. intros i Hi. rewrite Lo in Hi. rewrite Ho by auto. rewrite nth_repeat_lt by auto. apply Hc.
Qed.

(** ** Errors *)
Lemma svm_untrained {F} {N : Num F} ker lambda (P : matrix F) : svm_predict ker (svm_new lambda) P = Err UntrainedModel.
Proof. reflexivity. Qed.
Lemma svm_width {F} {N : Num F} ker (self : SVM F) al T y P : svm_alpha self = Some al -> svm_train_inputs self = Some T -> svm_train_targets self = Some y ->
  mcols T <> S (mcols P) -> svm_predict ker self P = Err InvalidState.
Proof.
  intros Ea Et Ey C. unfold svm_predict. rewrite Ea, Et, Ey. unfold ker_mat. cbn [mcols with_ones].
  destruct (Nat.eqb_spec (S (mcols P)) (mcols T)); [congruence|]. reflexivity.
Qed.
Lemma svm_values (ker : Kernel X) (self : SVM X) P out : svm_predict ker self P = Ok out -> Forall (fun v => v = Fin 1 \/ v = Fin (-1) \/ v = NaN) out.
Proof.
  unfold svm_predict. destruct (svm_alpha self), (svm_train_inputs self), (svm_train_targets self); try discriminate.
  destruct (ker_mat _ _ _) as [km| |]; cbn [rbind]; try discriminate. destruct (_ =? _)%nat; cbn [rassert]; try discriminate.
  destruct (rmat_vec _ _) as [d| |]; cbn [rbind]; try discriminate. intros H. apply Ok_inj in H. subst out.
  apply Forall_map, Forall_forall. intros v _. rewrite nsignum_X. destruct v; auto. destruct (Rlt_dec r 0); auto.
Qed.
(** More targets than rows pass training, and then every prediction panics. *)
Lemma svm_many_targets {F} {N : Num F} (ker : Kernel F) k (self self' : SVM F) D y P : mwf D -> ker_on ker k (S (mcols D)) -> (nrows D < length y)%nat ->
  outcome (svm_train ker self D y) (Some self') -> mwf P -> mcols P = mcols D -> svm_predict ker self' P = Panic.
Proof.
  intros W Hk Ly H WP CP. destruct (svm_train_out ker k self D y _ W Hk H) as [[E _]|(draws & al & s & E & Ld & Fd & Ea & La & _ & Ei & Et & _)]; [discriminate|].
  injection E as <-. unfold svm_predict. rewrite Ea, Ei, Et.
  rewrite (ker_mat_on ker k (S (mcols D))); auto using with_ones_wf; [|cbn; congruence]. cbn [rbind].
  destruct (Nat.eqb_spec (length al) (length y)); [lia|reflexivity].
Qed.
Lemma svm_no_panic {F} {N : Num F} (ker : Kernel F) k (self : SVM F) D y : mwf D -> ker_on ker k (S (mcols D)) -> (0 < nrows D <= length y)%nat ->
  ~ outcome (svm_train ker self D y) None.
Proof.
  intros W Hk L H. destruct (svm_train_out ker k self D y _ W Hk H) as [(_ & _ & ?)|(? & ? & ? & E & _)]; [lia|discriminate].
Qed.
