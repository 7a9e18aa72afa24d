From Coq Require Import List Arith Lia Bool Reals Lra.
From Verif Require Import Base BaseLemmas Num NumX NumFn NumSign Proof_Toolkit Linalg LinalgR Model_Optim Model_Regression Model_Kernel Model_GP Proof_Optim Proof_GP Model_SVM Spec_SVM.
Import ListNotations.

Section Train.
  Context {F : Type} {N : Num F}.

  Lemma upd_nth_ex {A} (l : list A) i x : (i < length l)%nat -> exists l', upd l i x = Some l' /\ length l' = length l /\
    forall j d, nth j l' d = if (j =? i)%nat then x else nth j l d.
  Proof.
    revert i; induction l as [|a l IH]; intros [|i] H; cbn [length] in H; try lia.
    - exists (x :: l). repeat split. intros [|j] d; reflexivity.
    - destruct (IH i ltac:(lia)) as (l' & E & L & Nl). cbn [upd]. rewrite E. exists (a :: l'). repeat split; [cbn; lia|].
      intros [|j] d; [reflexivity|]. apply Nl.
  Qed.
  Lemma ridx_nth {A} (l : list A) i d : (i < length l)%nat -> ridx l i = Ok (nth i l d).
  Proof. intros H. unfold ridx. rewrite (nth_error_nth' l d H). reflexivity. Qed.
  Lemma ridx_out {A} (l : list A) i v d : ridx l i = Ok v -> (i < length l)%nat /\ v = nth i l d.
  Proof.
    unfold ridx. destruct (nth_error l i) eqn:E; [|discriminate]. intros H. apply Ok_inj in H. subst v. split.
    - apply nth_error_Some. congruence.
    - symmetry. now apply nth_error_nth.
  Qed.


  Lemma ker_sum_val ker k dim x rows s : ker_on ker k dim -> length x = dim -> Forall (fun r => length r = dim) rows ->
    ker_sum ker x rows s = Ok (fold_left nadd (map (k x) rows) s).
  Proof.
    intros Hk Lx W. revert s. induction W as [|r rows Lr W IH]; intros s; [reflexivity|].
    cbn [ker_sum map fold_left]. rewrite (Hk _ _ Lx Lr). cbn [rbind]. apply IH.
  Qed.

  Variables (ker : Kernel F) (k : list F -> list F -> F) (self : SVM F) (FX : matrix F) (y : list F).
  Hypothesis W : mwf FX.
  Hypothesis Hk : ker_on ker k (mcols FX).
  Notation test := (code_test k (svm_lambda self) (mrows FX) y).

  Lemma body_out t alpha o : length alpha = nrows FX ->
    outcome (svm_body ker self FX y t alpha) o ->
    (o = None /\ (nrows FX = 0 \/ length y < nrows FX)%nat) \/
    exists i alpha', o = Some alpha' /\ (i < nrows FX)%nat /\ length alpha' = nrows FX /\
      forall j, nth j alpha' nzero = if ((i =? j)%nat && test t i)%bool then nadd (nth j alpha nzero) nonev else nth j alpha nzero.
  Proof.
    intros La H. unfold svm_body in H. apply outcome_bind in H.
    assert (G : forall o', outcome (gen_range (nrows FX)) o' -> (o' = None /\ nrows FX = 0%nat) \/ exists i, o' = Some i /\ (i < nrows FX)%nat).
    { intros o' Ho. unfold gen_range in Ho. inversion Ho as [|hi kk i oo Li Hi E1 E2|kk E1 E2|]; subst.
      - right. inversion Hi; subst. eauto.
      - left. auto. }
    destruct H as [(i & Hi & H)|[-> Hn]].
    2:{ left. split; auto. apply G in Hn. destruct Hn as [[_ ?]|[i [? _]]]; [auto|discriminate]. }
    apply G in Hi. destruct Hi as [[? _]|(i' & E & Li)]; [discriminate|]. injection E as <-.
    rewrite (ridx_nth (mrows FX) i [] Li) in H. cbn [rbind] in H.
    assert (Lr : length (nth i (mrows FX) []) = mcols FX) by (apply (proj1 (Forall_forall _ _) W), nth_In, Li).
    rewrite (ker_sum_val ker k (mcols FX)) in H; auto. cbn [rbind] in H.
    destruct (ridx y i) eqn:Ey; cbn [rbind rnd_res] in H.
    2:{ unfold ridx in Ey. destruct (nth_error y i); discriminate. }
    2:{ inversion H; subst. left. split; auto. right. unfold ridx in Ey. destruct (nth_error y i) eqn:E; [discriminate|].
        apply nth_error_None in E. unfold nrows in *. lia. }
    destruct (ridx_out _ _ _ nzero Ey) as [Ly ->]. right.
    fold (vsum (map (k (nth i (mrows FX) [])) (mrows FX))) in H.
    change (nltb (ndiv (nmul (vsum (map (k (nth i (mrows FX) [])) (mrows FX))) (nth i y nzero)) (nmul (svm_lambda self) (nofnat t))) nonev) with (test t i) in H.
    destruct (test t i) eqn:T.
    - rewrite (ridx_nth alpha i nzero) in H by lia. cbn [rbind] in H.
      destruct (upd_nth_ex alpha i (nadd (nth i alpha nzero) nonev)) as (a' & E & L' & Hn); [lia|]. rewrite E in H. cbn [rnd_res] in H. inversion H; subst.
      exists i, a'. repeat split; auto; [lia|]. intros j. rewrite Hn, (Nat.eqb_sym j i). rewrite T, andb_true_r. destruct (Nat.eqb_spec i j); subst; auto.
    - cbn [rnd_res] in H. inversion H; subst. exists i, alpha. repeat split; auto. intros j. rewrite T, andb_false_r. reflexivity.
  Qed.

  Lemma ones_S c : nadd (ones c) nonev = ones (S c) :> F.
  Proof. reflexivity. Qed.
  Lemma hits_app p i : forall t0 a b, hits p i t0 (a ++ b) = (hits p i t0 a + hits p i (t0 + length a) b)%nat.
  Proof.
    intros t0 a; revert t0; induction a as [|j a IH]; intros t0 b; cbn [hits app length]; [now rewrite Nat.add_0_r|].
    rewrite IH. replace (S t0 + length a)%nat with (t0 + S (length a))%nat by lia. lia.
  Qed.

  Lemma loop_out m o : outcome (rnd_for 0 m (svm_body ker self FX y) (repeat nzero (nrows FX))) o ->
    (o = None /\ (0 < m)%nat /\ (nrows FX = 0 \/ length y < nrows FX)%nat) \/
    exists draws alpha, o = Some alpha /\ length draws = m /\ Forall (fun i => (i < nrows FX)%nat) draws /\ length alpha = nrows FX /\
      forall j, (j < nrows FX)%nat -> nth j alpha nzero = ones (hits test j 0 draws).
  Proof.
    revert o. induction m as [|m IH]; intros o H.
    - inversion H; subst. right. exists [], (repeat nzero (nrows FX)). repeat split; auto; [apply repeat_length|].
      intros j Hj. cbn [hits ones]. now apply nth_repeat.
    - apply rnd_for_snoc_outcome in H. destruct H as [(s & Hs & H)|[-> Hn]].
      + destruct (IH _ Hs) as [[E _]|(draws & a & E & Ld & Fd & La & Hn)]; [discriminate|]. injection E as ->.
        destruct (body_out _ _ _ La H) as [[-> P]|(i & a' & -> & Li & La' & Hn')]; [left; repeat split; auto; lia|].
        right. exists (draws ++ [i]), a'. repeat split; auto.
        * rewrite app_length. cbn. lia.
        * apply Forall_app. auto.
        * intros j Hj. rewrite Hn', hits_app, (Hn j Hj). cbn [hits]. rewrite Ld. cbn [Nat.add].
          destruct ((i =? j)%nat && test m i)%bool; cbn [Nat.add]; rewrite ?Nat.add_0_r, ?Nat.add_1_r; reflexivity.
      + left. destruct (IH _ Hn) as [[_ [? P]]|(? & ? & E & _)]; [|discriminate]. split; [auto|split; [lia|auto]].
  Qed.
End Train.

Lemma with_ones_wf {F} {N : Num F} (X : matrix F) : mwf X -> mwf (with_ones X).
Proof. intros W. unfold mwf, with_ones in *. cbn [mrows mcols]. apply Forall_map. eapply Forall_impl; [|exact W]. intros r H. cbn. now rewrite H. Qed.
Lemma with_ones_nrows {F} {N : Num F} (X : matrix F) : nrows (with_ones X) = nrows X.
Proof. unfold nrows, with_ones. cbn. apply map_length. Qed.

Lemma svm_train_out {F} {N : Num F} (ker : Kernel F) k (self : SVM F) X y o : mwf X -> ker_on ker k (S (mcols X)) ->
  outcome (svm_train ker self X y) o ->
  (o = None /\ (0 < svm_optim_iters self)%nat /\ (nrows X = 0 \/ length y < nrows X)%nat) \/
  exists draws alpha self', o = Some self' /\ length draws = svm_optim_iters self /\ Forall (fun i => (i < nrows X)%nat) draws /\
    svm_alpha self' = Some alpha /\ length alpha = nrows X /\
    (forall j, (j < nrows X)%nat -> nth j alpha nzero =
       ndiv (ones (hits (code_test k (svm_lambda self) (mrows (with_ones X)) y) j 0 draws)) (nofnat (svm_optim_iters self))) /\
    svm_train_inputs self' = Some (with_ones X) /\ svm_train_targets self' = Some y /\
    svm_lambda self' = svm_lambda self /\ svm_optim_iters self' = svm_optim_iters self.
Proof.
  intros W Hk H. unfold svm_train in H. apply outcome_bind in H. rewrite <- (with_ones_nrows X) in *.
  assert (W' := with_ones_wf X W).
  destruct H as [(a & Ha & H)|[-> Hn]].
  - inversion H; subst. destruct (loop_out ker k self (with_ones X) y W' Hk _ _ Ha) as [[E _]|(draws & a' & E & Ld & Fd & La & Hn)]; [discriminate|].
    injection E as ->. right. eexists draws, _, _. split; [reflexivity|]. cbn [svm_alpha svm_train_inputs svm_train_targets svm_lambda svm_optim_iters].
    repeat split; auto; [now rewrite map_length|]. intros j Hj.
    rewrite (nth_map (fun a => ndiv a (nofnat (svm_optim_iters self))) a' j nzero nzero) by lia. now rewrite Hn.
  - destruct (loop_out ker k self (with_ones X) y W' Hk _ _ Hn) as [(_ & P)|(? & ? & E & _)]; [|discriminate]. left. auto.
Qed.

(** ** Coefficients *)
Lemma ones_X c : ones c = Fin (INR c).
Proof. induction c as [|c IH]; [reflexivity|]. cbn [ones]. rewrite IH. cbn [nadd nonev NumXI xadd]. now rewrite S_INR. Qed.
Lemma ones_R c : ones c = INR c.
Proof. induction c as [|c IH]; [reflexivity|]. cbn [ones]. rewrite IH. cbn [nadd nonev NumR]. now rewrite S_INR. Qed.

Lemma hits_total test n : forall draws t, (fold_right Nat.add 0 (map (fun i => hits test i t draws) (seq 0 n)) <= length draws)%nat.
Proof.
  induction draws as [|j draws IH]; intros t.
  - induction (seq 0 n); cbn in *; auto.
  - cbn [length].
    assert (H : forall l, NoDup l -> (fold_right Nat.add 0 (map (fun i => hits test i t (j :: draws)) l) <=
      (if in_dec Nat.eq_dec j l then 1 else 0) + fold_right Nat.add 0 (map (fun i => hits test i (S t) draws) l))%nat).
    { induction l as [|i l IHl]; intros ND; [cbn; lia|]. inversion ND as [|? ? Ni ND']; subst. specialize (IHl ND').
      cbn [map fold_right]. cbn [hits] in *. destruct (Nat.eqb_spec j i) as [->|Ne].
      - destruct (in_dec Nat.eq_dec i l); [contradiction|]. destruct (in_dec Nat.eq_dec i (i :: l)) as [|Ni']; [|exfalso; apply Ni'; now left].
        destruct (true && test t i)%bool; lia.
      - cbn [andb]. destruct (in_dec Nat.eq_dec j l).
        + destruct (in_dec Nat.eq_dec j (i :: l)) as [|Ni']; [lia|exfalso; apply Ni'; now right].
        + destruct (in_dec Nat.eq_dec j (i :: l)) as [[?|?]|]; [congruence|contradiction|lia]. }
    specialize (H (seq 0 n) (seq_NoDup n 0)). specialize (IH (S t)). destruct (in_dec Nat.eq_dec j (seq 0 n)); lia.
Qed.
Lemma hits_le test i : forall draws t, (hits test i t draws <= length draws)%nat.
Proof. induction draws as [|j d IH]; intros t; cbn [hits length]; [lia|]. specialize (IH (S t)). destruct ((j =? i)%nat && test t j)%bool; lia. Qed.

Lemma INR_sum l : fold_right Rplus 0%R (map INR l) = INR (fold_right Nat.add 0%nat l).
Proof. induction l as [|a l IH]; [reflexivity|]. cbn [map fold_right]. rewrite IH, plus_INR. reflexivity. Qed.
Lemma sum_div l c : fold_right Rplus 0%R (map (fun n => INR n / c)%R l) = (INR (fold_right Nat.add 0%nat l) / c)%R.
Proof. rewrite <- INR_sum. induction l as [|a l IH]; cbn [map fold_right]; [unfold Rdiv; ring|]. rewrite IH. unfold Rdiv. ring. Qed.

Lemma list_as_map {A} (l : list A) n (f : nat -> A) d : length l = n -> (forall j, (j < n)%nat -> nth j l d = f j) -> l = map f (seq 0 n).
Proof.
  intros L H. apply (nth_ext _ _ d d); [now rewrite map_length, seq_length|]. intros j Hj. rewrite H by lia. symmetry. apply nth_map_seq. lia.
Qed.

Theorem svm_coefficients (ker : Kernel X) k (self self' : SVM X) D y : mwf D -> ker_on ker k (S (mcols D)) -> (0 < svm_optim_iters self)%nat ->
  outcome (svm_train ker self D y) (Some self') ->
  exists a : list R, svm_alpha self' = Some (map Fin a) /\ length a = nrows D /\ Forall (fun v => 0 <= v <= 1)%R a /\ (fold_right Rplus 0 a <= 1)%R.
Proof.
  intros W Hk It H. destruct (svm_train_out ker k self D y _ W Hk H) as [[E _]|(draws & al & s & E & Ld & _ & Ea & La & Hn & _)]; [discriminate|].
  injection E as <-. set (h := fun j => hits (code_test k (svm_lambda self) (mrows (with_ones D)) y) j 0 draws).
  assert (Ip : (0 < INR (svm_optim_iters self))%R) by (apply lt_0_INR; lia).
  exists (map (fun n => INR n / INR (svm_optim_iters self))%R (map h (seq 0 (nrows D)))). rewrite !map_map. split; [|split; [|split]].
  - rewrite Ea. f_equal. apply (list_as_map al _ _ nzero La). intros j Hj. rewrite (Hn j Hj), ones_X.
    cbn [ndiv nofnat NumXI xdiv]. destruct (Req_EM_T _ _); [lra|]. reflexivity.
  - now rewrite map_length, seq_length.
  - apply Forall_map, Forall_forall. intros j _. pose proof (hits_le (code_test k (svm_lambda self) (mrows (with_ones D)) y) j draws 0) as Hl. fold (h j) in Hl.
    apply le_INR in Hl. rewrite Ld in Hl. pose proof (pos_INR (h j)). split.
    + apply Rmult_le_pos; [auto|]. left. now apply Rinv_0_lt_compat.
    + apply (Rmult_le_reg_r (INR (svm_optim_iters self))); auto. field_simplify; lra.
  - rewrite <- (map_map h (fun n => INR n / INR (svm_optim_iters self))%R), sum_div.
    pose proof (hits_total (code_test k (svm_lambda self) (mrows (with_ones D)) y) (nrows D) draws 0) as Ht. fold h in Ht. apply le_INR in Ht. rewrite Ld in Ht.
    apply (Rmult_le_reg_r (INR (svm_optim_iters self))); auto. field_simplify; lra.
Qed.

(** ** Prediction *)
Lemma ker_mat_on {F} {N : Num F} (ker : Kernel F) k dim (A B : matrix F) : mwf A -> mwf B -> mcols A = dim -> mcols B = dim -> ker_on ker k dim ->
  ker_mat ker A B = Ok (Mat (map (fun r => map (k r) (mrows B)) (mrows A)) (nrows B)).
Proof.
  intros WA WB CA CB Hk. unfold ker_mat. rewrite CA, CB, Nat.eqb_refl. cbn [negb].
  assert (E : forall rs, Forall (fun r => length r = dim) rs -> forall x, length x = dim -> rmap (fun row2 => ker x row2) rs = Ok (map (k x) rs)).
  { intros rs Wr x Lx. induction Wr as [|r rs Lr Wr IH]; [reflexivity|]. cbn [rmap map]. rewrite (Hk _ _ Lx Lr), IH. reflexivity. }
  unfold mwf in WA, WB. rewrite CA in WA. rewrite CB in WB.
  assert (E2 : rmap (fun row1 => rmap (fun row2 => ker row1 row2) (mrows B)) (mrows A) = Ok (map (fun r => map (k r) (mrows B)) (mrows A))).
  { induction WA as [|r rs Lr Wr IH]; [reflexivity|]. cbn [rmap map]. rewrite (E _ WB r Lr), IH. reflexivity. }
  rewrite E2. reflexivity.
Qed.

Lemma svm_predict_val {F} {N : Num F} (ker : Kernel F) k (self : SVM F) alpha T y P : mwf P -> mwf T -> mcols T = S (mcols P) -> ker_on ker k (mcols T) ->
  svm_alpha self = Some alpha -> svm_train_inputs self = Some T -> svm_train_targets self = Some y -> length alpha = nrows T -> length y = nrows T ->
  svm_predict ker self P = Ok (map (fun x => nsignum (dot (map (k (nonev :: x)) (mrows T)) (map (fun w => ndiv w (svm_lambda self)) (velemul alpha y)))) (mrows P)).
Proof.
  intros WP WT C Hk Ea Et Ey La Ly. unfold svm_predict. rewrite Ea, Et, Ey.
  rewrite (ker_mat_on ker k (mcols T)); auto using with_ones_wf. cbn [rbind]. rewrite La, Ly, Nat.eqb_refl. cbn [rassert].
  unfold rmat_vec. cbn [mcols]. rewrite map_length. unfold velemul. rewrite map2_length, La, Ly, Nat.min_id, Nat.eqb_refl. cbn [rassert rbind].
  unfold mat_vec, with_ones. cbn [mrows]. now rewrite !map_map.
Qed.

Lemma nsignum_R (d : R) : nsignum d = if Rlt_dec d 0 then (-1)%R else 1%R.
Proof.
  unfold nsignum. cbn [nnan nltb neqb nopp nonev nzero ndiv NumR]. destruct (Rlt_dec d 0); [cbn; lra|]. cbn [orb].
  destruct (Req_EM_T d 0) as [->|]; [|reflexivity]. cbn [andb]. destruct (Rlt_dec (1 / 0) 0) as [H|]; [|reflexivity].
  unfold Rdiv in H. rewrite Rinv_0 in H. lra.
Qed.
Lemma nsignum_X (d : X) : nsignum d = match d with NaN => NaN | NInf => Fin (-1) | PInf => Fin 1 | Fin r => if Rlt_dec r 0 then Fin (-1) else Fin 1 end.
Proof.
  unfold nsignum. destruct d; cbn [nnan xnan NumXI nltb neqb nopp nonev nzero ndiv xltb xeqb xopp xdiv orb andb]; auto; try (f_equal; lra).
  destruct (Rlt_dec r 0); [cbn; f_equal; lra|]. cbn [orb]. destruct (Req_EM_T r 0); [|reflexivity]. cbn [andb].
  unfold sgn_inf. destruct (Rlt_dec 0 1); [|lra]. reflexivity.
Qed.
