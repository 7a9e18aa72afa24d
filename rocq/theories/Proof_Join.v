(** Lemmas for [Props_Join]: joining batches, relabelling, choosing labels. *)
From Coq Require Import List Arith Bool Lia Reals Lra.
From Verif Require Import Base Num NumX Model_Confusion Spec_Confusion Proof_Confusion Model_Score Spec_Score Proof_Score.
Import ListNotations.

Section Join.
  Context {T : Type} (leb eqb : T -> T -> bool) (Heq : decides_eq eqb).
  Lemma samples_join t p ts1 ps1 ts2 ps2 : length ps1 = length ts1 -> samples eqb t p (ts1 ++ ts2) (ps1 ++ ps2) = samples eqb t p ts1 ps1 + samples eqb t p ts2 ps2.
  Proof. revert ps1. induction ts1 as [|a l IH]; intros [|b q] L; try discriminate; cbn; [reflexivity|]. rewrite IH by (now injection L). lia. Qed.
  Theorem confusion_join os1 ts1 os2 ts2 labels : length os1 = length ts1 -> length os2 = length ts2 -> NoDup labels -> exists m1 m2 m,
    confusion_matrix leb eqb os1 ts1 (Some labels) = Ok m1 /\ confusion_matrix leb eqb os2 ts2 (Some labels) = Ok m2 /\
    confusion_matrix leb eqb (os1 ++ os2) (ts1 ++ ts2) (Some labels) = Ok m /\
    forall i j, i < length labels -> j < length labels -> exists a b, entry m1 i j = Some a /\ entry m2 i j = Some b /\ entry m i j = Some (a + b).
  Proof.
    intros L1 L2 ND. destruct (proj2 (with_labels leb eqb Heq os1 ts1 labels) L1 ND) as (m1 & E1 & (_ & T1)).
    destruct (proj2 (with_labels leb eqb Heq os2 ts2 labels) L2 ND) as (m2 & E2 & (_ & T2)).
    destruct (proj2 (with_labels leb eqb Heq (os1 ++ os2) (ts1 ++ ts2) labels)) as (m & E & (_ & Tm)); [rewrite !app_length; lia|exact ND|].
    exists m1, m2, m. repeat split; auto. intros i j Hi Hj.
    destruct (nth_error labels i) as [t|] eqn:Et; [|apply nth_error_None in Et; lia]. destruct (nth_error labels j) as [p|] eqn:Ep; [|apply nth_error_None in Ep; lia].
    eexists _, _. split; [apply T1; eauto|]. split; [apply T2; eauto|]. rewrite (Tm i j t p Et Ep). now rewrite samples_join.
  Qed.
  Theorem confusion_chosen os ts labels labels' m m' : confusion_matrix leb eqb os ts (Some labels) = Ok m -> confusion_matrix leb eqb os ts (Some labels') = Ok m' ->
    forall i j i' j', i < length labels -> j < length labels -> nth_error labels' i' = nth_error labels i -> nth_error labels' j' = nth_error labels j -> entry m' i' j' = entry m i j.
  Proof.
    intros E E' i j i' j' Hi Hj Ei Ej.
    assert (P : forall ls q, confusion_matrix leb eqb os ts (Some ls) = Ok q -> tabulates eqb ls ts os q).
    { intros ls q H. assert (L : length os = length ts) by (destruct (Nat.eq_dec (length os) (length ts)) as [e|e]; [exact e|]; rewrite (proj1 (with_labels leb eqb Heq os ts ls) (or_introl e)) in H; discriminate).
      assert (D : {NoDup ls} + {~ NoDup ls}). { apply ListDec.NoDup_dec. intros x y. destruct (eqb x y) eqn:Exy; [left; now apply Heq|right; intros ->; rewrite (proj2 (Heq y y) eq_refl) in Exy; discriminate]. }
      destruct D as [D|D]; [|rewrite (proj1 (with_labels leb eqb Heq os ts ls) (or_intror D)) in H; discriminate].
      destruct (proj2 (with_labels leb eqb Heq os ts ls) L D) as (q' & Eq & Tq). rewrite Eq in H. now injection H as <-. }
    destruct (P _ _ E) as (_ & Tm). destruct (P _ _ E') as (_ & Tm').
    destruct (nth_error labels i) as [t|] eqn:Et; [|apply nth_error_None in Et; lia]. destruct (nth_error labels j) as [p|] eqn:Ep; [|apply nth_error_None in Ep; lia].
    now rewrite (Tm i j t p Et Ep), (Tm' i' j' t p Ei Ej).
  Qed.
  Theorem accuracy_join os1 ts1 os2 ts2 : length os1 = length ts1 -> length os2 = length ts2 -> os1 <> [] -> os2 <> [] -> exists a1 a2,
    accuracy (F := X) eqb os1 ts1 = Ok (Fin a1) /\ accuracy (F := X) eqb os2 ts2 = Ok (Fin a2) /\
    accuracy (F := X) eqb (os1 ++ os2) (ts1 ++ ts2) = Ok (Fin ((INR (length os1) * a1 + INR (length os2) * a2) / (INR (length os1) + INR (length os2)))).
  Proof.
    intros L1 L2 N1 N2.
    destruct (accuracy_range eqb Heq os1 ts1 L1 N1) as (a1 & E1 & _ & _ & _ & C1). destruct (accuracy_range eqb Heq os2 ts2 L2 N2) as (a2 & E2 & _ & _ & _ & C2).
    destruct (accuracy_range eqb Heq (os1 ++ os2) (ts1 ++ ts2)) as (a & E & _ & _ & _ & C); [rewrite !app_length; lia|destruct os1; [contradiction|discriminate]|].
    exists a1, a2. repeat split; auto. rewrite E. do 2 f_equal.
    assert (CJ : count2 eqb (os1 ++ os2) (ts1 ++ ts2) = count2 eqb os1 ts1 + count2 eqb os2 ts2).
    { clear - L1. revert ts1 L1. induction os1 as [|o l IH]; intros [|t q] L; try discriminate; cbn; [reflexivity|]. rewrite IH by (now injection L). lia. }
    rewrite CJ, app_length, !plus_INR, <- C1, <- C2 in C.
    assert (P1 : (0 < INR (length os1))%R) by (apply lt_0_INR; destruct os1; [contradiction|cbn; lia]).
    assert (P2 : (0 < INR (length os2))%R) by (apply lt_0_INR; destruct os2; [contradiction|cbn; lia]).
    apply (Rmult_eq_reg_r (INR (length os1) + INR (length os2))); [|lra]. rewrite C. field. lra.
  Qed.
End Join.

Section Relabel.
  Context {S T : Type} (leb : S -> S -> bool) (eqb : S -> S -> bool) (leb' eqb' : T -> T -> bool) (f : S -> T).
  Hypothesis FE : forall x y, eqb' (f x) (f y) = eqb x y.
  Lemma filter_relabel (l : list (S * S)) : length (filter (fun xy => eqb' (fst xy) (snd xy)) (map (fun p => (f (fst p), f (snd p))) l)) = length (filter (fun xy => eqb (fst xy) (snd xy)) l).
  Proof. induction l as [|[a b] l IH]; cbn; [reflexivity|]. rewrite FE. destruct (eqb a b); cbn; now rewrite IH. Qed.
  Lemma combine_relabel (a b : list S) : combine (map f a) (map f b) = map (fun p => (f (fst p), f (snd p))) (combine a b).
  Proof. revert b. induction a as [|x a IH]; intros [|z b]; cbn; try reflexivity. now rewrite IH. Qed.
  Theorem accuracy_relabel {F} {N : Num F} os ts : accuracy (F := F) eqb' (map f os) (map f ts) = accuracy eqb os ts.
  Proof. unfold accuracy. now rewrite !map_length, combine_relabel, filter_relabel. Qed.
  Context (zero one : S).
  Lemma two_relabel o t : not_two_class eqb' (f zero) (f one) (f o) (f t) = not_two_class eqb zero one o t.
  Proof. unfold not_two_class. now rewrite !FE. Qed.
  Theorem precision_relabel {F} {N : Num F} os ts : precision (F := F) eqb' (f zero) (f one) (map f os) (map f ts) = precision eqb zero one os ts.
  Proof.
    unfold precision. rewrite !map_length, combine_relabel. f_equal.
    assert (H : forall l a b, precision_loop (F := F) eqb' (f zero) (f one) (map (fun p => (f (fst p), f (snd p))) l) a b = precision_loop eqb zero one l a b); [|now rewrite H].
    induction l as [|[o t] l IH]; intros a b; cbn [map precision_loop fst snd]; [reflexivity|]. rewrite two_relabel, !FE.
    destruct (eqb o one); destruct (eqb t one); destruct (not_two_class _ _ _ _ _); auto.
  Qed.
  Theorem recall_relabel {F} {N : Num F} os ts : recall (F := F) eqb' (f zero) (f one) (map f os) (map f ts) = recall eqb zero one os ts.
  Proof.
    unfold recall. rewrite !map_length, combine_relabel. f_equal.
    assert (H : forall l a b, recall_loop (F := F) eqb' (f zero) (f one) (map (fun p => (f (fst p), f (snd p))) l) a b = recall_loop eqb zero one l a b); [|now rewrite H].
    induction l as [|[o t] l IH]; intros a b; cbn [map recall_loop fst snd]; [reflexivity|]. rewrite two_relabel, !FE.
    destruct (eqb o one); destruct (eqb t one); destruct (not_two_class _ _ _ _ _); auto.
  Qed.
  Theorem f1_relabel {F} {N : Num F} os ts : f1 (F := F) eqb' (f zero) (f one) (map f os) (map f ts) = f1 eqb zero one os ts.
  Proof.
    unfold f1. rewrite !map_length, combine_relabel. f_equal.
    assert (H : forall l a b c, f1_loop (F := F) eqb' (f zero) (f one) (map (fun p => (f (fst p), f (snd p))) l) a b c = f1_loop eqb zero one l a b c); [|now rewrite H].
    induction l as [|[o t] l IH]; intros a b c; cbn [map f1_loop fst snd]; [reflexivity|]. rewrite two_relabel, !FE.
    destruct (eqb o one); destruct (eqb t one); cbn [andb]; destruct (not_two_class _ _ _ _ _); cbn [andb]; auto.
  Qed.
  (** The confusion matrix. *)
  Let g (kv : S * nat) := (f (fst kv), snd kv).
  Lemma lookup_relabel k m : lookup eqb' (f k) (map g m) = lookup eqb k m.
  Proof. induction m as [|[a b] m IH]; cbn; [reflexivity|]. rewrite FE. now destruct (eqb k a). Qed.
  Lemma index_relabel ls : forall i m, build_index eqb' i (map f ls) (map g m) = match build_index eqb i ls m with Ok q => Ok (map g q) | Err e => Err e | Panic => Panic end.
  Proof. induction ls as [|l ls IH]; intros i m; cbn [map build_index]; [reflexivity|]. rewrite lookup_relabel. destruct (lookup eqb l m); [reflexivity|]. apply (IH (Datatypes.S i) ((l, i) :: m)). Qed.
  Lemma loop_relabel m l : forall c, count_loop eqb' (map g m) (map (fun p => (f (fst p), f (snd p))) l) c = count_loop eqb m l c.
  Proof.
    induction l as [|[a b] l IH]; intros c; cbn [map count_loop fst snd]; [reflexivity|]. rewrite !lookup_relabel.
    destruct (lookup eqb a m); [|apply IH]. destruct (lookup eqb b m); [|apply IH]. destruct (bump c n n0); cbn [rbind]; auto.
  Qed.
  Lemma matrix_relabel os ts ls : (rassert (length (map f os) =? length (map f ts)) (let? m := build_index eqb' 0 (map f ls) [] in
      count_loop eqb' m (combine (map f ts) (map f os)) (repeat (repeat 0 (length (map f ls))) (length (map f ls))))) =
    rassert (length os =? length ts) (let? m := build_index eqb 0 ls [] in count_loop eqb m (combine ts os) (repeat (repeat 0 (length ls)) (length ls))).
  Proof.
    rewrite !map_length. f_equal. pose proof (index_relabel ls 0 []) as H. cbn [map] in H. rewrite H. destruct (build_index eqb 0 ls []) as [m| |]; cbn [rbind]; auto.
    rewrite combine_relabel. apply loop_relabel.
  Qed.
  Theorem confusion_relabel os ts ls : confusion_matrix leb' eqb' (map f os) (map f ts) (Some (map f ls)) = confusion_matrix leb eqb os ts (Some ls).
  Proof. apply matrix_relabel. Qed.
  Hypothesis FL : forall x y, leb' (f x) (f y) = leb x y.
  Lemma insert_relabel x l : insert leb' (f x) (map f l) = map f (insert leb x l).
  Proof. induction l as [|y l IH]; cbn; [reflexivity|]. rewrite FL. destruct (leb x y); cbn; [reflexivity|]. now rewrite IH. Qed.
  Lemma sort_relabel l : sort leb' (map f l) = map f (sort leb l).
  Proof. induction l as [|x l IH]; cbn; [reflexivity|]. rewrite IH. apply insert_relabel. Qed.
  Lemma dedup_relabel l : dedup eqb' (map f l) = map f (dedup eqb l).
  Proof.
    destruct l as [|x l]; cbn; [reflexivity|]. f_equal. revert x. induction l as [|y l IH]; intros x; cbn; [reflexivity|]. rewrite FE. destruct (eqb x y); cbn; now rewrite IH.
  Qed.
  Theorem confusion_relabel_sorted os ts : confusion_matrix leb' eqb' (map f os) (map f ts) None = confusion_matrix leb eqb os ts None.
  Proof. unfold confusion_matrix. unfold ordered_distinct. rewrite <- map_app, sort_relabel, dedup_relabel. apply matrix_relabel. Qed.
End Relabel.
