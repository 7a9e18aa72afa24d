From Coq Require Import List Arith Bool Reals Lia Lra.
From Verif Require Import Base Num NumX Model_Score Spec_Score.
Import ListNotations.

Lemma xdiv_nat a b : (b = 0 -> a = 0) -> xdiv (Fin (INR a)) (Fin (INR b)) = ratio a b.
Proof.
  intros H. unfold ratio, xdiv. destruct (Nat.eqb_spec b 0) as [->|Hb].
  - rewrite H by auto. simpl. destruct (Req_EM_T 0 0); [|lra]. unfold sgn_inf.
    destruct (Rlt_dec 0 0); [lra|]. auto.
  - destruct (Req_EM_T (INR b) 0) as [E|]; auto. exfalso. apply (not_0_INR b); auto.
Qed.

Lemma xadd_nat a : xadd (Fin (INR a)) (Fin 1) = Fin (INR (a + 1)).
Proof. simpl. rewrite plus_INR. reflexivity. Qed.

Section Acc.
  Context {T : Type} (eqb : T -> T -> bool).

  Lemma filter_count2 os ts :
    length (filter (fun xy : T * T => eqb (fst xy) (snd xy)) (combine os ts)) = count2 eqb os ts.
  Proof.
    revert ts; induction os as [|o os IH]; intros [|t ts]; simpl; auto.
    destruct (eqb o t); simpl; rewrite IH; auto.
  Qed.
  Lemma count2_le P (os ts : list T) : count2 P os ts <= length os.
  Proof. revert ts; induction os as [|o os IH]; intros [|t ts]; simpl; try lia. specialize (IH ts). destruct (P o t); lia. Qed.

  Lemma accuracy_spec (os ts : list T) :
    accuracy (F := X) eqb os ts =
    if length os =? length ts then Ok (ratio (count2 eqb os ts) (length os)) else Panic.
  Proof.
    unfold accuracy. destruct (length os =? length ts) eqn:E; cbn [rassert]; auto.
    rewrite filter_count2. cbv zeta. change (@ndiv X NumXI) with xdiv. change (@nofnat X NumXI) with (fun n => Fin (INR n)).
    cbv beta. rewrite xdiv_nat; auto. pose proof (count2_le eqb os ts). lia.
  Qed.

  Hypothesis Heq : forall x y, eqb x y = true <-> x = y.

  Lemma count2_full (os ts : list T) : length os = length ts ->
    (count2 eqb os ts = length os <-> os = ts).
  Proof.
    revert ts; induction os as [|o os IH]; intros [|t ts] H; simpl in *; try discriminate; [tauto|].
    pose proof (count2_le eqb os ts). specialize (IH ts ltac:(lia)).
    destruct (eqb o t) eqn:E.
    - apply Heq in E. subst. split; intros K.
      + f_equal. apply IH. lia.
      + inversion K; subst. simpl. f_equal. apply IH. auto.
    - split; intros K; [lia|]. inversion K; subst. assert (eqb t t = true) by (apply Heq; auto). congruence.
  Qed.

  Lemma accuracy_range (os ts : list T) : length os = length ts -> os <> [] ->
    exists a, accuracy (F := X) eqb os ts = Ok (Fin a) /\ (0 <= a <= 1)%R /\ (a = 1%R <-> os = ts) /\
      (a = 0%R <-> count2 eqb os ts = 0) /\
      (a * INR (length os) = INR (count2 eqb os ts))%R.
  Proof.
    intros H Hne. rewrite accuracy_spec. rewrite H, Nat.eqb_refl, <- H.
    assert (Hl : length os <> 0) by (destruct os; simpl; congruence).
    unfold ratio. destruct (Nat.eqb_spec (length os) 0); [congruence|].
    exists (INR (count2 eqb os ts) / INR (length os))%R.
    assert (Hp : (0 < INR (length os))%R) by (apply lt_0_INR; lia).
    assert (Hc : (INR (count2 eqb os ts) <= INR (length os))%R) by (apply le_INR; apply count2_le).
    assert (Hc0 : (0 <= INR (count2 eqb os ts))%R) by apply pos_INR.
    split; auto. split; [|split; [|split]].
    - split; [apply Rmult_le_pos; auto; left; apply Rinv_0_lt_compat; auto|].
      apply Rmult_le_reg_r with (INR (length os)); auto. unfold Rdiv. rewrite Rmult_assoc, Rinv_l; lra.
    - rewrite <- (count2_full os ts H). split; intros K.
      + apply INR_eq. apply Rmult_eq_reg_r with (/ INR (length os))%R; [|apply Rinv_neq_0_compat; lra].
        rewrite Rinv_r by lra. exact K.
      + rewrite K. field. lra.
    - split; intros K.
      + apply INR_eq. simpl. apply Rmult_eq_reg_r with (/ INR (length os))%R; [|apply Rinv_neq_0_compat; lra].
        rewrite Rmult_0_l. exact K.
      + rewrite K. simpl. unfold Rdiv. lra.
    - field. lra.
  Qed.

  Variable zero one : T.
  Hypothesis H01 : zero <> one.

  Lemma eqb_rf x : eqb x x = true. Proof. apply Heq; auto. Qed.
  Lemma eqb_nq x y : x <> y -> eqb x y = false.
  Proof. intros H. destruct (eqb x y) eqn:E; auto. apply Heq in E; congruence. Qed.

  Lemma not_two_class_spec o t :
    not_two_class eqb zero one o t = false <-> (o = zero \/ o = one) /\ (t = zero \/ t = one).
  Proof.
    unfold not_two_class. rewrite orb_false_iff, !andb_false_iff, !negb_false_iff, !Heq. tauto.
  Qed.

  Lemma precision_loop_spec (os ts : list T) : length os = length ts -> forall a b,
    (two_class zero one os /\ two_class zero one ts ->
     precision_loop (F := X) eqb zero one (combine os ts) (Fin (INR a)) (Fin (INR b)) =
     Ok (Fin (INR (a + (TP eqb one os ts + FP eqb zero one os ts))), Fin (INR (b + TP eqb one os ts)))) /\
    (~ (two_class zero one os /\ two_class zero one ts) ->
     precision_loop (F := X) eqb zero one (combine os ts) (Fin (INR a)) (Fin (INR b)) = Panic).
  Proof.
    unfold TP, FP.
    revert ts; induction os as [|o os IH]; intros [|t ts] H a b; simpl in H; try discriminate.
    - simpl. rewrite !Nat.add_0_r. split; auto. intros K. exfalso; apply K; split; intros x [].
    - cbn [combine precision_loop count2].
      destruct (not_two_class eqb zero one o t) eqn:E.
      + assert (K : ~ (two_class zero one (o :: os) /\ two_class zero one (t :: ts))).
        { intros [K1 K2]. assert (not_two_class eqb zero one o t = false); [|congruence].
          apply not_two_class_spec. split; [apply K1|apply K2]; left; auto. }
        split; [tauto|]. intros _. destruct (eqb o one); reflexivity.
      + apply not_two_class_spec in E. destruct E as [Eo Et].
        assert (K : two_class zero one (o :: os) /\ two_class zero one (t :: ts) <-> two_class zero one os /\ two_class zero one ts).
        { unfold two_class. simpl. split; intros [K1 K2]; split; intros x Hx; auto;
          destruct Hx as [<-|Hx]; auto. }
        rewrite K.
        assert (Hoz : eqb one zero = false) by (apply eqb_nq; auto).
        assert (Hzo : eqb zero one = false) by (apply eqb_nq; auto).
        destruct Eo as [->| ->], Et as [->| ->]; rewrite ?eqb_rf, ?Hoz, ?Hzo; cbn [andb];
          change (@nadd X NumXI) with xadd; change (@nonev X NumXI) with (Fin 1);
          rewrite ?xadd_nat;
          match goal with |- context [precision_loop _ _ _ _ (Fin (INR ?a')) (Fin (INR ?b'))] =>
            destruct (IH ts ltac:(lia) a' b') as [I1 I2] end;
          (split; [intros C; rewrite (I1 C); apply f_equal; apply f_equal2; do 2 apply f_equal; lia|auto]).
  Qed.

  Lemma recall_loop_spec (os ts : list T) : length os = length ts -> forall a b,
    (two_class zero one os /\ two_class zero one ts ->
     recall_loop (F := X) eqb zero one (combine os ts) (Fin (INR a)) (Fin (INR b)) =
     Ok (Fin (INR (a + (TP eqb one os ts + FN eqb zero one os ts))), Fin (INR (b + TP eqb one os ts)))) /\
    (~ (two_class zero one os /\ two_class zero one ts) ->
     recall_loop (F := X) eqb zero one (combine os ts) (Fin (INR a)) (Fin (INR b)) = Panic).
  Proof.
    unfold TP, FN.
    revert ts; induction os as [|o os IH]; intros [|t ts] H a b; simpl in H; try discriminate.
    - simpl. rewrite !Nat.add_0_r. split; auto. intros K. exfalso; apply K; split; intros x [].
    - cbn [combine recall_loop count2].
      destruct (not_two_class eqb zero one o t) eqn:E.
      + assert (K : ~ (two_class zero one (o :: os) /\ two_class zero one (t :: ts))).
        { intros [K1 K2]. assert (not_two_class eqb zero one o t = false); [|congruence].
          apply not_two_class_spec. split; [apply K1|apply K2]; left; auto. }
        split; [tauto|]. intros _. destruct (eqb t one); reflexivity.
      + apply not_two_class_spec in E. destruct E as [Eo Et].
        assert (K : two_class zero one (o :: os) /\ two_class zero one (t :: ts) <-> two_class zero one os /\ two_class zero one ts).
        { unfold two_class. simpl. split; intros [K1 K2]; split; intros x Hx; auto;
          destruct Hx as [<-|Hx]; auto. }
        rewrite K.
        assert (Hoz : eqb one zero = false) by (apply eqb_nq; auto).
        assert (Hzo : eqb zero one = false) by (apply eqb_nq; auto).
        destruct Eo as [->| ->], Et as [->| ->]; rewrite ?eqb_rf, ?Hoz, ?Hzo; cbn [andb];
          change (@nadd X NumXI) with xadd; change (@nonev X NumXI) with (Fin 1);
          rewrite ?xadd_nat;
          match goal with |- context [recall_loop _ _ _ _ (Fin (INR ?a')) (Fin (INR ?b'))] =>
            destruct (IH ts ltac:(lia) a' b') as [I1 I2] end;
          (split; [intros C; rewrite (I1 C); apply f_equal; apply f_equal2; do 2 apply f_equal; lia|auto]).
  Qed.

  Lemma f1_loop_spec (os ts : list T) : length os = length ts -> forall a b c,
    (two_class zero one os /\ two_class zero one ts ->
     f1_loop (F := X) eqb zero one (combine os ts) (Fin (INR a)) (Fin (INR b)) (Fin (INR c)) =
     Ok (Fin (INR (a + TP eqb one os ts)), Fin (INR (b + FN eqb zero one os ts)), Fin (INR (c + FP eqb zero one os ts)))) /\
    (~ (two_class zero one os /\ two_class zero one ts) ->
     f1_loop (F := X) eqb zero one (combine os ts) (Fin (INR a)) (Fin (INR b)) (Fin (INR c)) = Panic).
  Proof.
    unfold TP, FN, FP.
    revert ts; induction os as [|o os IH]; intros [|t ts] H a b c; simpl in H; try discriminate.
    - simpl. rewrite !Nat.add_0_r. split; auto. intros K. exfalso; apply K; split; intros x [].
    - cbn [combine f1_loop count2].
      destruct (not_two_class eqb zero one o t) eqn:E.
      + assert (K : ~ (two_class zero one (o :: os) /\ two_class zero one (t :: ts))).
        { intros [K1 K2]. assert (not_two_class eqb zero one o t = false); [|congruence].
          apply not_two_class_spec. split; [apply K1|apply K2]; left; auto. }
        split; [tauto|]. intros _. destruct (eqb o one), (eqb t one); reflexivity.
      + apply not_two_class_spec in E. destruct E as [Eo Et].
        assert (K : two_class zero one (o :: os) /\ two_class zero one (t :: ts) <-> two_class zero one os /\ two_class zero one ts).
        { unfold two_class. simpl. split; intros [K1 K2]; split; intros x Hx; auto;
          destruct Hx as [<-|Hx]; auto. }
        rewrite K.
        assert (Hoz : eqb one zero = false) by (apply eqb_nq; auto).
        assert (Hzo : eqb zero one = false) by (apply eqb_nq; auto).
        destruct Eo as [->| ->], Et as [->| ->]; rewrite ?eqb_rf, ?Hoz, ?Hzo; cbn [andb];
          change (@nadd X NumXI) with xadd; change (@nonev X NumXI) with (Fin 1);
          rewrite ?xadd_nat;
          match goal with |- context [f1_loop _ _ _ _ (Fin (INR ?a')) (Fin (INR ?b')) (Fin (INR ?c'))] =>
            destruct (IH ts ltac:(lia) a' b' c') as [I1 I2] end;
          (split; [intros C; rewrite (I1 C); apply f_equal; apply f_equal2; [apply f_equal2|]; do 2 apply f_equal; lia|auto]).
  Qed.

  Lemma two_class_scores (os ts : list T) :
    (length os <> length ts \/ ~ (two_class zero one os /\ two_class zero one ts) ->
       precision (F := X) eqb zero one os ts = Panic /\ recall (F := X) eqb zero one os ts = Panic /\
       f1 (F := X) eqb zero one os ts = Panic) /\
    (length os = length ts -> two_class zero one os -> two_class zero one ts ->
       precision (F := X) eqb zero one os ts = Ok (ratio (TP eqb one os ts) (TP eqb one os ts + FP eqb zero one os ts)) /\
       recall (F := X) eqb zero one os ts = Ok (ratio (TP eqb one os ts) (TP eqb one os ts + FN eqb zero one os ts)) /\
       f1 (F := X) eqb zero one os ts =
         Ok (ratio (2 * TP eqb one os ts) (2 * TP eqb one os ts + FP eqb zero one os ts + FN eqb zero one os ts))).
  Proof.
    unfold precision, recall, f1. change (@nzero X NumXI) with (Fin (INR 0)).
    split.
    - intros H. destruct (Nat.eqb_spec (length os) (length ts)) as [E|E]; [|simpl; auto].
      destruct H as [H|H]; [congruence|]. cbn [rassert].
      rewrite (proj2 (precision_loop_spec os ts E 0 0) H), (proj2 (recall_loop_spec os ts E 0 0) H),
        (proj2 (f1_loop_spec os ts E 0 0 0) H). auto.
    - intros E H1 H2. rewrite E, Nat.eqb_refl. cbn [rassert].
      rewrite (proj1 (precision_loop_spec os ts E 0 0) (conj H1 H2)), (proj1 (recall_loop_spec os ts E 0 0) (conj H1 H2)),
        (proj1 (f1_loop_spec os ts E 0 0 0) (conj H1 H2)). cbn [rbind Nat.add].
      change (@ndiv X NumXI) with xdiv.
      split; [|split].
      + rewrite xdiv_nat; auto. lia.
      + rewrite xdiv_nat; auto. lia.
      + apply f_equal. rewrite <- xdiv_nat by lia.
        cbn [nmul nadd nonev NumXI xadd xmul]. apply f_equal2; apply f_equal; rewrite ?plus_INR, ?mult_INR; simpl; ring.
  Qed.

  (** Consequences for the value ranges and the harmonic mean. *)
  Lemma ratio_range a b : a <= b -> b <> 0 -> exists r, ratio a b = Fin r /\ (0 <= r <= 1)%R.
  Proof.
    intros H Hb. unfold ratio. destruct (Nat.eqb_spec b 0); [congruence|]. eexists. split; eauto.
    assert (Hp : (0 < INR b)%R) by (apply lt_0_INR; lia). assert (INR a <= INR b)%R by (apply le_INR; auto).
    pose proof (pos_INR a). split.
    - apply Rmult_le_pos; auto. left. apply Rinv_0_lt_compat. auto.
    - apply Rmult_le_reg_r with (INR b); auto. unfold Rdiv. rewrite Rmult_assoc, Rinv_l; lra.
  Qed.

  Lemma f1_harmonic (os ts : list T) p r :
    length os = length ts -> two_class zero one os -> two_class zero one ts ->
    precision (F := X) eqb zero one os ts = Ok (Fin p) -> recall (F := X) eqb zero one os ts = Ok (Fin r) ->
    (p + r <> 0)%R ->
    f1 (F := X) eqb zero one os ts = Ok (Fin (2 * p * r / (p + r))%R) /\
    (0 <= p <= 1)%R /\ (0 <= r <= 1)%R.
  Proof.
    intros E H1 H2 Hp Hr Hne. destruct (two_class_scores os ts) as [_ S]. destruct (S E H1 H2) as (P & R & F').
    rewrite P in Hp. rewrite R in Hr. rewrite F'. 
    set (tp := TP eqb one os ts) in *. set (fp := FP eqb zero one os ts) in *. set (fn := FN eqb zero one os ts) in *.
    unfold ratio in Hp, Hr. 
    destruct (Nat.eqb_spec (tp + fp) 0) as [|N1]; [discriminate|]. destruct (Nat.eqb_spec (tp + fn) 0) as [|N2]; [discriminate|].
    inversion Hp as [Ep]. inversion Hr as [Er]. 
    assert (I1 : (0 < INR (tp + fp))%R) by (apply lt_0_INR; lia).
    assert (I2 : (0 < INR (tp + fn))%R) by (apply lt_0_INR; lia).
    assert (Htp : tp <> 0).
    { intros K. apply Hne. rewrite <- Ep, <- Er, K. simpl. unfold Rdiv. lra. }
    split; [|split].
    - unfold ratio. destruct (Nat.eqb_spec (2 * tp + fp + fn) 0); [lia|]. f_equal. f_equal.
      rewrite !plus_INR, !mult_INR in *. simpl (INR 2).
      assert (0 < INR tp)%R by (apply lt_0_INR; lia). pose proof (pos_INR fp). pose proof (pos_INR fn).
      field. repeat split; try lra.
      replace (INR tp * (INR tp + INR fn) + INR tp * (INR tp + INR fp))%R with (INR tp * (2 * INR tp + INR fp + INR fn))%R by ring.
      apply Rmult_integral_contrapositive. split; lra.
    - destruct (ratio_range tp (tp + fp)) as (x & Ex & Hx); try lia. unfold ratio in Ex.
      destruct (Nat.eqb_spec (tp + fp) 0); [lia|]. inversion Ex; subst. auto.
    - destruct (ratio_range tp (tp + fn)) as (x & Ex & Hx); try lia. unfold ratio in Ex.
      destruct (Nat.eqb_spec (tp + fn) 0); [lia|]. inversion Ex; subst. auto.
  Qed.
End Acc.

(** Rows of finite numbers are compared entrywise. *)
Lemma slice_eqb_fin (a b : list R) : slice_eqb (map Fin a) (map Fin b) = true <-> a = b.
Proof.
  revert b; induction a as [|x a IH]; intros [|y b]; simpl; try (split; [discriminate|discriminate]); [tauto|].
  rewrite andb_true_iff, IH. destruct (Req_EM_T x y); split.
  - intros [_ ->]. congruence.
  - intros H; inversion H; auto.
  - intros [H _]; discriminate.
  - intros H; inversion H; congruence.
Qed.

(** Number of positions where two lists agree / rows agree. *)
Lemma row_accuracy_spec (os ts : list (list R)) :
  length os = length ts -> os <> [] ->
  exists a, row_accuracy (map (map Fin) os) (map (map Fin) ts) = Ok (Fin a) /\
    (0 <= a <= 1)%R /\ (a = 1%R <-> os = ts) /\
    (a * INR (length os) = INR (count2 (fun x y => slice_eqb (map Fin x) (map Fin y)) os ts))%R.
Proof.
  intros Hl Hne. unfold row_accuracy.
  assert (HA : accuracy (F := X) (slice_eqb (F := X)) (map (map Fin) os) (map (map Fin) ts) =
          accuracy (F := X) (fun x y => slice_eqb (map Fin x) (map Fin y)) os ts).
  { unfold accuracy. rewrite !map_length. f_equal. f_equal. f_equal. f_equal.
    clear. revert ts. induction os as [|o os IH]; intros [|t ts]; simpl; auto.
    destruct (slice_eqb (map Fin o) (map Fin t)); simpl; rewrite IH; auto. }
  rewrite HA.
  destruct (accuracy_range (fun x y => slice_eqb (map Fin x) (map Fin y)) slice_eqb_fin os ts Hl Hne)
    as (a & E & Ha & H1 & _ & Hc).
  exists a. auto.
Qed.
