(** Scores against the confusion matrix, and exchanging predictions with targets. *)
From Coq Require Import List Arith Bool Sorted Lia Permutation Reals.
From Verif Require Import Base Num NumX Model_Confusion Spec_Confusion Proof_Confusion Model_Score Spec_Score Proof_Score Spec_Scores2.
Import ListNotations.

Section S.
  Context {T : Type} (leb eqb : T -> T -> bool) (Heq : decides_eq eqb).
  Lemma eqb_sym' x y : eqb x y = eqb y x.
  Proof.
    destruct (eqb x y) eqn:E; symmetry.
    - apply Heq in E as ->. now apply Heq.
    - destruct (eqb y x) eqn:E2; [|reflexivity]. apply Heq in E2 as ->. assert (eqb x x = true) by now apply Heq. congruence.
  Qed.
  Lemma samples_swap t p ts ps : samples eqb t p ts ps = samples eqb p t ps ts.
  Proof. revert ps. induction ts as [|t' ts IH]; intros [|p' ps]; try reflexivity. cbn. rewrite IH, andb_comm. reflexivity. Qed.
  Lemma count2_swap os ts : count2 eqb os ts = count2 eqb ts os.
  Proof. revert ts. induction os as [|o os IH]; intros [|t ts]; try reflexivity. cbn. now rewrite IH, eqb_sym'. Qed.

  Lemma sum_seq_shift (f : nat -> nat) s n : list_sum (map f (seq (S s) n)) = list_sum (map (fun i => f (S i)) (seq s n)).
  Proof. now rewrite <- seq_shift, map_map. Qed.
  Lemma one_label_sum (labels : list T) x y : NoDup labels -> In x labels ->
    list_sum (map (fun l => if eqb l x && eqb l y then 1 else 0) labels) = if eqb x y then 1 else 0.
  Proof.
    intros ND Hx. induction labels as [|l ls IH]; [destruct Hx|]. inversion ND as [|? ? N1 N2]; subst. cbn.
    destruct (eqb l x) eqn:E.
    - apply Heq in E as ->. replace (list_sum _) with 0; [cbn; destruct (eqb x y); reflexivity|].
      symmetry. clear IH Hx ND N2. induction ls as [|l' ls' IH']; [reflexivity|]. cbn. destruct (eqb l' x) eqn:E'.
      + apply Heq in E' as ->. exfalso. apply N1. now left.
      + cbn. apply IH'. intros G. apply N1. now right.
    - cbn. destruct Hx as [Hx|Hx]; [apply Heq in Hx; congruence|]. now apply IH.
  Qed.
  Lemma diag_count (labels os ts : list T) : NoDup labels -> length os = length ts -> (forall x, In x ts -> In x labels) ->
    list_sum (map (fun l => samples eqb l l ts os) labels) = count2 eqb os ts.
  Proof.
    intros ND. revert os. induction ts as [|t ts IH]; intros [|o os] L H; try discriminate; cbn [samples count2].
    - induction labels as [|l ls IHl]; [reflexivity|]. cbn. apply IHl; now inversion ND.
    - assert (A : forall (f g : T -> nat) l, list_sum (map (fun x => f x + g x) l) = list_sum (map f l) + list_sum (map g l)) by (intros f g l; unfold list_sum; induction l as [|z l IHl]; [reflexivity|]; cbn in IHl |- *; rewrite IHl; lia).
      rewrite A, (one_label_sum labels t o ND (H t (or_introl eq_refl))), IH; [now rewrite (eqb_sym' t o)|now injection L|intros; apply H; now right].
  Qed.
  Lemma tab_diag labels ts os m : tabulates eqb labels ts os m -> diagonal m = map (fun l => samples eqb l l ts os) labels.
  Proof.
    intros [[L W] H]. unfold diagonal. rewrite L.
    apply nth_ext with (d := 0) (d' := 0); [now rewrite !map_length, seq_length|]. intros i Hi. rewrite map_length, seq_length in Hi.
    rewrite (nth_error_nth (map (fun i => nth i (nth i m []) 0) (seq 0 (length labels))) i 0 (x := nth i (nth i m []) 0)) by
      (rewrite nth_error_map, (nth_error_nth' _ 0) by (now rewrite seq_length); rewrite seq_nth by exact Hi; reflexivity).
    destruct (nth_error labels i) as [t|] eqn:E; [|apply nth_error_None in E; lia].
    specialize (H i i t t E E). unfold entry in H. destruct (nth_error m i) as [r|] eqn:E1; [|discriminate].
    rewrite (nth_error_nth m i [] E1), (nth_error_nth r i 0 H).
    erewrite nth_error_nth; [reflexivity|]. rewrite nth_error_map, E. reflexivity.
  Qed.
  Lemma ascending_nodup l : ascending leb l -> NoDup l.
  Proof.
    induction 1 as [|x l _ IH H]; constructor; [|exact IH]. intros G. apply (proj1 (Forall_forall _ _) H x G). reflexivity.
  Qed.
  Hypothesis Hord : total_order leb.
  Lemma ascending_unique l l' : ascending leb l -> ascending leb l' -> (forall x, In x l <-> In x l') -> l = l'.
  Proof.
    intros A. revert l'. induction A as [|x l A IH H]; intros l' A' E.
    - destruct l' as [|y l']; [reflexivity|]. destruct (proj2 (E y) (or_introl eq_refl)).
    - destruct A' as [|y l' A' H']; [destruct (proj1 (E x) (or_introl eq_refl))|].
      rewrite Forall_forall in H, H'. assert (X : x = y).
      { destruct (proj1 (E x) (or_introl eq_refl)) as [?|G]; [auto|]. destruct (proj2 (E y) (or_introl eq_refl)) as [?|G']; [auto|].
        destruct (H' x G) as [B _]. destruct (H y G') as [C _]. now apply (proj1 (proj2 Hord)). }
      subst y. f_equal. apply IH; [exact A'|]. intros z. split; intros G.
      + destruct (proj1 (E z) (or_intror G)) as [<-|?]; [|assumption]. destruct (H x G) as [_ B]. now destruct B.
      + destruct (proj2 (E z) (or_intror G)) as [<-|?]; [|assumption]. destruct (H' x G) as [_ B]. now destruct B.
  Qed.

  Lemma accuracy_trace os ts m : confusion_matrix leb eqb os ts None = Ok m -> accuracy (F := X) eqb os ts = Ok (ratio (trace_of m) (total m)).
  Proof.
    intros E. pose proof (@without_labels T leb eqb Heq Hord os ts) as [P Q].
    destruct (Nat.eq_dec (length os) (length ts)) as [L|L]; [|rewrite (P L) in E; discriminate].
    destruct (Q L) as (labels & m' & E' & A & C & Tb & Tt). rewrite E in E'. injection E' as <-.
    rewrite accuracy_spec, L, Nat.eqb_refl. unfold trace_of. rewrite (tab_diag _ _ _ _ Tb), Tt, diag_count; [reflexivity|now apply ascending_nodup|exact L|].
    intros x Hx. apply C. now right.
  Qed.

  Lemma tab_swap labels ts os m m' : tabulates eqb labels ts os m -> tabulates eqb labels os ts m' -> forall i j, entry m' j i = entry m i j.
  Proof.
    intros [[L W] H] [[L' W'] H'] i j.
    destruct (nth_error labels i) as [t|] eqn:Ei, (nth_error labels j) as [p|] eqn:Ej.
    - rewrite (H i j t p Ei Ej), (H' j i p t Ej Ei), samples_swap. reflexivity.
    - unfold entry. apply nth_error_None in Ej. assert (nth_error m' j = None) as -> by (apply nth_error_None; lia).
      destruct (nth_error m i) as [r|] eqn:R; [|reflexivity]. apply nth_error_In, W in R. symmetry. apply nth_error_None. lia.
    - unfold entry. apply nth_error_None in Ei. assert (nth_error m i = None) as -> by (apply nth_error_None; lia).
      destruct (nth_error m' j) as [r|] eqn:R; [|reflexivity]. apply nth_error_In, W' in R. apply nth_error_None. lia.
    - unfold entry. apply nth_error_None in Ei, Ej. assert (nth_error m i = None) as -> by (apply nth_error_None; lia).
      assert (nth_error m' j = None) as -> by (apply nth_error_None; lia). reflexivity.
  Qed.
  Lemma confusion_swap os ts labels m : confusion_matrix leb eqb os ts labels = Ok m ->
    exists m', confusion_matrix leb eqb ts os labels = Ok m' /\ forall i j, entry m' j i = entry m i j.
  Proof.
    intros E. destruct labels as [ls|].
    - pose proof (@with_labels T leb eqb Heq os ts ls) as [P Q]. pose proof (@with_labels T leb eqb Heq ts os ls) as [_ Q'].
      destruct (Nat.eq_dec (length os) (length ts)) as [L|L]; [|rewrite (P (or_introl L)) in E; discriminate].
      assert (ND : NoDup ls). { destruct (ListDec.NoDup_dec (fun x y => match bool_dec (eqb x y) true with left e => left (proj1 (Heq x y) e) | right n => right (fun e => n (proj2 (Heq x y) e)) end) ls) as [?|N]; [assumption|]. rewrite (P (or_intror N)) in E. discriminate. }
      destruct (Q L ND) as (m1 & E1 & T1). destruct (Q' (eq_sym L) ND) as (m2 & E2 & T2). rewrite E in E1. injection E1 as <-.
      exists m2. split; [exact E2|]. exact (tab_swap ls ts os m m2 T1 T2).
    - pose proof (@without_labels T leb eqb Heq Hord os ts) as [P Q]. pose proof (@without_labels T leb eqb Heq Hord ts os) as [_ Q'].
      destruct (Nat.eq_dec (length os) (length ts)) as [L|L]; [|rewrite (P L) in E; discriminate].
      destruct (Q L) as (l1 & m1 & E1 & A1 & C1 & T1 & _). destruct (Q' (eq_sym L)) as (l2 & m2 & E2 & A2 & C2 & T2 & _). rewrite E in E1. injection E1 as <-.
      assert (l1 = l2) as <-. { apply ascending_unique; [exact A1|exact A2|]. intros x. rewrite C1, C2. tauto. }
      exists m2. split; [exact E2|]. exact (tab_swap l1 ts os m m2 T1 T2).
  Qed.
End S.

Section Two.
  Context {F : Type} {N : Num F} {T : Type} (eqb : T -> T -> bool) (zero one : T).
  Lemma combine_len_swap {A B} (xs : list A) (ys : list B) : combine ys xs = map (fun p => (snd p, fst p)) (combine xs ys).
  Proof. revert ys. induction xs as [|x xs IH]; intros [|y ys]; try reflexivity. cbn. now rewrite IH. Qed.
  (** In any arithmetic. *)
  Lemma precision_recall_swap os ts : precision (F := F) eqb zero one os ts = recall (F := F) eqb zero one ts os.
  Proof.
    unfold precision, recall. rewrite (Nat.eqb_sym (length ts)). unfold rassert. destruct (_ =? _)%nat; [|reflexivity]. rewrite (combine_len_swap os ts).
    assert (E : forall l a b, recall_loop (F := F) eqb zero one (map (fun p => (snd p, fst p)) l) a b = precision_loop (F := F) eqb zero one l a b).
    { induction l as [|[o t] l IH]; intros a b; [reflexivity|]. cbn. replace (not_two_class eqb zero one t o) with (not_two_class eqb zero one o t) by (unfold not_two_class; apply orb_comm).
      destruct (eqb o one); cbn; destruct (not_two_class eqb zero one o t); try reflexivity; apply IH. }
    rewrite E. reflexivity.
  Qed.
  Hypothesis Heq : decides_eq eqb.
  Lemma accuracy_swap os ts : accuracy (F := F) eqb os ts = accuracy (F := F) eqb ts os.
  Proof.
    unfold accuracy. rewrite (Nat.eqb_sym (length ts)). unfold rassert. destruct (Nat.eqb_spec (length os) (length ts)) as [L|L]; [|reflexivity]. rewrite L.
    do 3 f_equal. rewrite (combine_len_swap os ts). clear L. generalize (combine os ts). intros l. induction l as [|[o t] l IH]; [reflexivity|].
    cbn. rewrite (eqb_sym' eqb Heq t o). destruct (eqb o t); cbn; congruence.
  Qed.
End Two.
Section TwoX.
  Context {T : Type} (leb eqb : T -> T -> bool) (zero one : T) (Heq : decides_eq eqb) (Hne : zero <> one).
  Lemma TP_swap os ts : TP eqb one os ts = TP eqb one ts os.
  Proof. unfold TP. revert ts. induction os as [|o os IH]; intros [|t ts]; try reflexivity. cbn. now rewrite IH, andb_comm. Qed.
  Lemma FP_swap os ts : FP eqb zero one os ts = FN eqb zero one ts os.
  Proof. unfold FP, FN. revert ts. induction os as [|o os IH]; intros [|t ts]; try reflexivity. cbn. now rewrite IH, andb_comm. Qed.
  Lemma f1_swap os ts : f1 (F := X) eqb zero one os ts = f1 (F := X) eqb zero one ts os.
  Proof.
    destruct (two_class_scores eqb Heq zero one Hne os ts) as [P Q]. destruct (two_class_scores eqb Heq zero one Hne ts os) as [P' Q'].
    assert (Dec : forall l, {two_class zero one l} + {~ two_class zero one l}).
    { intros l. assert (D : forall x, {x = zero \/ x = one} + {~ (x = zero \/ x = one)}).
      { intros x. destruct (eqb x zero) eqn:E; [left; left; now apply Heq|]. destruct (eqb x one) eqn:E1; [left; right; now apply Heq|].
        right. intros [->| ->]; [assert (eqb zero zero = true) by now apply Heq|assert (eqb one one = true) by now apply Heq]; congruence. }
      induction l as [|x l IH]; [left; intros y []|]. destruct (D x) as [Dx|Dx]; [|right; intros G; apply Dx, G; now left].
      destruct IH as [I|I]; [left; intros y [<-|Hy]; auto|right; intros G; apply I; intros y Hy; apply G; now right]. }
    destruct (Nat.eq_dec (length os) (length ts)) as [L|L].
    - destruct (Dec os) as [Do|Do]; [destruct (Dec ts) as [Dt|Dt]|].
      + destruct (Q L Do Dt) as (_ & _ & ->). destruct (Q' (eq_sym L) Dt Do) as (_ & _ & ->). rewrite (TP_swap ts os), (FP_swap ts os), <- (FP_swap os ts). do 2 f_equal. lia.
      + destruct (P (or_intror (fun G => Dt (proj2 G)))) as (_ & _ & ->). destruct (P' (or_intror (fun G => Dt (proj1 G)))) as (_ & _ & ->). reflexivity.
      + destruct (P (or_intror (fun G => Do (proj1 G)))) as (_ & _ & ->). destruct (P' (or_intror (fun G => Do (proj2 G)))) as (_ & _ & ->). reflexivity.
    - destruct (P (or_introl L)) as (_ & _ & ->). destruct (P' (or_introl (fun G => L (eq_sym G)))) as (_ & _ & ->). reflexivity.
  Qed.
  (** The two-class scores from the table with the labels 0 and 1. *)
  Lemma samples_count t p os ts : samples eqb t p ts os = count2 (fun o u => eqb o p && eqb u t) os ts.
  Proof.
    revert ts. induction os as [|o os IH]; intros [|u ts]; try reflexivity. cbn. rewrite IH, (eqb_sym' eqb Heq t u), (eqb_sym' eqb Heq p o), andb_comm. reflexivity.
  Qed.
  Lemma two_class_table os ts m : two_class zero one os -> two_class zero one ts -> confusion_matrix leb eqb os ts (Some [zero; one]) = Ok m ->
    exists tn fp fn tp, m = [[tn; fp]; [fn; tp]] /\ precision (F := X) eqb zero one os ts = Ok (ratio tp (tp + fp)) /\
      recall (F := X) eqb zero one os ts = Ok (ratio tp (tp + fn)) /\ f1 (F := X) eqb zero one os ts = Ok (ratio (2 * tp) (2 * tp + fp + fn)) /\
      accuracy (F := X) eqb os ts = Ok (ratio (tp + tn) (tp + tn + fp + fn)).
  Proof.
    intros Do Dt E. destruct (@with_labels T leb eqb Heq os ts [zero; one]) as [P Q].
    destruct (Nat.eq_dec (length os) (length ts)) as [L|L]; [|rewrite (P (or_introl L)) in E; discriminate].
    assert (ND : NoDup [zero; one]) by (repeat constructor; cbn; intuition).
    destruct (Q L ND) as (m' & E' & (Sq & W) & H). rewrite E in E'. injection E' as <-.
    destruct m as [|r0 [|r1 [|]]]; try discriminate Sq.
    destruct r0 as [|a [|b [|]]]; try (specialize (W _ (or_introl eq_refl)); discriminate W).
    destruct r1 as [|c [|d [|]]]; try (specialize (W _ (or_intror (or_introl eq_refl))); discriminate W).
    exists a, b, c, d. split; [reflexivity|].
    pose proof (H 0 0 zero zero eq_refl eq_refl) as H00. pose proof (H 0 1 zero one eq_refl eq_refl) as H01. pose proof (H 1 0 one zero eq_refl eq_refl) as H10. pose proof (H 1 1 one one eq_refl eq_refl) as H11.
    cbn in H00, H01, H10, H11. injection H00 as ->. injection H01 as ->. injection H10 as ->. injection H11 as ->. rewrite !samples_count.
    destruct (two_class_scores eqb Heq zero one Hne os ts) as [_ Q2]. destruct (Q2 L Do Dt) as (-> & -> & ->).
    unfold TP, FP, FN. split; [reflexivity|]. split; [reflexivity|]. split; [reflexivity|].
    rewrite accuracy_spec. rewrite L, Nat.eqb_refl.
    set (tp := count2 (fun o u => eqb o one && eqb u one) os ts). set (tn := count2 (fun o u => eqb o zero && eqb u zero) os ts).
    set (fp := count2 (fun o u => eqb o one && eqb u zero) os ts). set (fn := count2 (fun o u => eqb o zero && eqb u one) os ts).
    assert (X1 : count2 eqb os ts = tp + tn /\ length ts = tp + tn + fp + fn).
    { unfold tp, tn, fp, fn. clear - Heq Hne Do Dt L. revert ts Dt L. induction os as [|o os IH]; intros [|t ts] Dt L; try discriminate; [split; reflexivity|].
      destruct (IH (fun x Hx => Do x (or_intror Hx)) ts (fun x Hx => Dt x (or_intror Hx)) (f_equal pred L)) as [I1 I2]. cbn [count2 length]. rewrite I1, I2.
      assert (E00 : eqb zero zero = true) by now apply Heq. assert (E11 : eqb one one = true) by now apply Heq.
      assert (E01 : eqb zero one = false) by (destruct (eqb zero one) eqn:G; [apply Heq in G; contradiction|reflexivity]).
      assert (E10 : eqb one zero = false) by (rewrite eqb_sym'; assumption).
      destruct (Do o (or_introl eq_refl)) as [->| ->], (Dt t (or_introl eq_refl)) as [->| ->]; rewrite ?E00, ?E11, ?E01, ?E10; cbn; lia. }
    destruct X1 as [-> ->]. reflexivity.
  Qed.
End TwoX.
