(** * The container of nearest candidates, and the brute-force search *)
From Coq Require Import List Arith Lia Bool Permutation Sorted.
From Verif Require Import Base BaseLemmas Num NumOrd Linalg LinalgR Spec_Calc Model_KNN Spec_KNN.
Import ListNotations.

Section K.
  Context {F : Type} {N : Num F} {O : NumOrd F}.
  Variable D : nat -> F.

  Definition ple (p q : nat * F) : Prop := nltb (snd q) (snd p) = false.
  Definition psorted (ps : list (nat * F)) : Prop := StronglySorted ple ps.
  Definition pnonan (ps : list (nat * F)) : Prop := forall p, In p ps -> nnan (snd p) = false.

  Lemma sort_insert_perm p l : Permutation (p :: l) (sort_insert p l).
  Proof.
    induction l as [|q l IH]; cbn; auto. destruct (nltb (snd q) (snd p)); auto.
    etransitivity; [apply perm_swap|]. now constructor.
  Qed.
  Lemma sort_pairs_perm l : Permutation l (sort_pairs l).
  Proof. induction l; cbn; auto. etransitivity; [|apply sort_insert_perm]. now constructor. Qed.

  Lemma sort_insert_sorted p l : pnonan l -> psorted l -> psorted (sort_insert p l).
  Proof.
    unfold psorted. induction l as [|q l IH]; intros NN S; cbn.
    - constructor; constructor.
    - inversion S as [|? ? S' H']; subst. destruct (nltb (snd q) (snd p)) eqn:E.
      + constructor. { apply IH; auto. intros x Hx. apply NN. now right. }
        apply Forall_forall. intros x Hx. apply (Permutation_in _ (Permutation_sym (sort_insert_perm p l))) in Hx.
        destruct Hx as [<-|Hx]; [now apply no_asym|]. rewrite Forall_forall in H'. now apply H'.
      + constructor; auto. constructor; auto. eapply Forall_impl; [|exact H']. intros x Hx. unfold ple in *.
        apply (no_ntrans _ (snd q)); auto. apply NN. now left.
  Qed.
  Lemma sort_pairs_sorted l : pnonan l -> psorted (sort_pairs l).
  Proof.
    induction l as [|p l IH]; intros NN; cbn; [constructor|].
    apply sort_insert_sorted.
    - intros x Hx. apply NN. right. now apply (Permutation_in _ (Permutation_sym (sort_pairs_perm l))).
    - apply IH. intros x Hx. apply NN. now right.
  Qed.

  Lemma psorted_app a b : psorted (a ++ b) -> psorted a /\ psorted b /\ forall x y, In x a -> In y b -> ple x y.
  Proof.
    unfold psorted. induction a as [|x a IH]; cbn; intros S.
    - repeat split; auto. constructor. intros ? ? [].
    - inversion S as [|? ? S' H']; subst. destruct (IH S') as (A & B & C). rewrite Forall_forall in H'.
      repeat split; auto.
      + constructor; auto. apply Forall_forall. intros y Hy. apply H'. apply in_or_app. now left.
      + intros u v [<-|Hu] Hv; auto. apply H'. apply in_or_app. now right.
  Qed.

  Lemma sort_insert_split p a b : (forall x, In x a -> nltb (snd x) (snd p) = true) ->
    (forall y, In y b -> nltb (snd y) (snd p) = false) -> sort_insert p (a ++ b) = a ++ p :: b.
  Proof.
    induction a as [|x a IH]; cbn; intros A B.
    - destruct b as [|y b]; cbn; auto. now rewrite (B y (or_introl eq_refl)).
    - rewrite A; auto. rewrite IH; auto.
  Qed.
  Lemma sort_insert_last p a z : nltb (snd z) (snd p) = false -> sort_insert p (a ++ [z]) = sort_insert p a ++ [z].
  Proof. intros Z. induction a as [|x a IH]; cbn; [now rewrite Z|]. destruct (nltb (snd x) (snd p)); cbn; [now rewrite IH|reflexivity]. Qed.

  Lemma ridx_nth {A} (l : list A) i d : i < length l -> ridx l i = Ok (nth i l d).
  Proof. intros H. unfold ridx. now rewrite (nth_error_nth' l d H). Qed.
  Lemma nth_last {A} (l : list A) d : nth (length l - 1) l d = last l d.
  Proof.
    destruct l as [|x l] using rev_ind; auto. rewrite last_last, app_length. cbn.
    rewrite app_nth2 by lia. replace (length l + 1 - 1 - length l) with 0 by lia. reflexivity.
  Qed.
  Lemma ridx_last {A} (l : list A) d : l <> [] -> ridx l (length l - 1) = Ok (last l d).
  Proof. intros H. rewrite (ridx_nth _ _ d). now rewrite nth_last. destruct l; [easy|cbn; lia]. Qed.

  Lemma add_scan_spec p j : forall ps, j <= length ps -> psorted ps -> nnan (snd p) = false -> pnonan ps ->
    (forall y, In y (skipn j ps) -> nltb (snd y) (snd p) = false) -> add_scan j ps p = Ok (sort_insert p ps).
  Proof.
    induction j as [|j IH]; intros ps L PS Np NN B; cbn.
    - unfold vec_insert. cbn. f_equal. symmetry. apply (sort_insert_split p [] ps); [intros ? []|exact B].
    - rewrite (ridx_nth _ _ p) by lia. cbn.
      assert (E : ps = firstn j ps ++ nth j ps p :: skipn (S j) ps).
      { rewrite <- (firstn_skipn j ps) at 1. f_equal. clear -L. revert ps L. induction j; intros [|x ps] L; cbn in *; auto; try lia. apply IHj. lia. }
      destruct (nltb (snd (nth j ps p)) (snd p)) eqn:C.
      + f_equal. unfold vec_insert. rewrite <- (firstn_skipn (S j) ps) at 3. rewrite sort_insert_split; auto.
        intros x Hx. assert (Hx' : In x (firstn j ps ++ [nth j ps p])).
        { rewrite E in Hx. rewrite firstn_app in Hx. rewrite firstn_length_le in Hx by lia. rewrite firstn_firstn in Hx.
          replace (Init.Nat.min (S j) j) with j in Hx by lia. replace (S j - j) with 1 in Hx by lia. exact Hx. }
        apply in_app_or in Hx'. destruct Hx' as [Hx'|[<-|[]]]; auto.
        rewrite E in PS. apply psorted_app in PS. destruct PS as (_ & _ & PS).
        specialize (PS x (nth j ps p) Hx' (or_introl eq_refl)). unfold ple in PS.
        apply (no_le_lt _ (snd (nth j ps p))); auto. apply NN. rewrite E. apply in_or_app. now left.
      + apply IH; auto; try lia. intros y Hy.
        assert (Hy' : In y (nth j ps p :: skipn (Datatypes.S j) ps)).
        { rewrite E in Hy. rewrite skipn_app, firstn_length_le in Hy by lia. rewrite skipn_firstn_comm in Hy.
          replace (j - j) with 0 in Hy by lia. exact Hy. }
        destruct Hy' as [<-|Hy']; auto.
  Qed.

  Lemma add_spec k ps i d : psorted ps -> ps <> [] -> length ps <= k -> nnan d = false -> pnonan ps ->
    knearest_add k ps i d =
    Ok (firstn k (sort_insert (i, d) ps), snd (last (firstn k (sort_insert (i, d) ps)) (i, d))).
  Proof.
    intros S NE L Nd NN. unfold knearest_add. set (p := (i, d)).
    rewrite (ridx_last _ p NE). cbn [rbind].
    destruct (exists_last NE) as (a & z & ->). rewrite last_last.
    rewrite app_length in *. cbn [length] in *. rewrite Nat.add_sub.
    assert (PL : forall l, length (sort_insert p l) = Datatypes.S (length l))
      by (intros; rewrite <- (Permutation_length (sort_insert_perm p l)); reflexivity).
    destruct (nltb (snd z) d) eqn:C.
    - assert (E : sort_insert p (a ++ [z]) = (a ++ [z]) ++ [p]).
      { rewrite <- (app_nil_r (a ++ [z])) at 1. apply sort_insert_split; [|intros ? []].
        intros x Hx. apply in_app_or in Hx. destruct Hx as [Hx|[<-|[]]]; auto.
        apply psorted_app in S. destruct S as (_ & _ & S). specialize (S x z Hx (or_introl eq_refl)). unfold ple in S.
        apply (no_le_lt _ (snd z)); auto. apply NN. apply in_or_app. now left. }
      rewrite E. destruct (length a + 1 <? k) eqn:K.
      + apply Nat.ltb_lt in K. rewrite firstn_all2 by (rewrite !app_length; cbn; lia).
        rewrite (ridx_nth _ _ p) by (rewrite !app_length; cbn; lia). cbn [rbind]. rewrite last_last.
        rewrite app_nth2 by (rewrite app_length; cbn; lia). rewrite app_length. cbn [length]. rewrite Nat.sub_diag. reflexivity.
      + apply Nat.ltb_ge in K. assert (k = length (a ++ [z])) by (rewrite app_length; cbn; lia). subst k.
        rewrite firstn_app, Nat.sub_diag, firstn_all. cbn [firstn]. rewrite app_nil_r, last_last.
        rewrite (ridx_nth _ _ p) by (rewrite !app_length; cbn; lia). cbn [rbind].
        rewrite app_nth2 by lia. rewrite Nat.sub_diag. reflexivity.
    - rewrite sort_insert_last by exact C.
      assert (Sa := proj1 (psorted_app _ _ S)).
      assert (NNa : pnonan a) by (intros x Hx; apply NN; apply in_or_app; now left).
      destruct (k <=? length a + 1) eqn:K.
      + apply Nat.leb_le in K. assert (k = length a + 1) by lia. subst k.
        rewrite (proj2 (Nat.ltb_ge _ _)) by lia. rewrite removelast_last.
        rewrite add_scan_spec; auto; [|rewrite skipn_all; intros ? []]. cbn [rbind].
        rewrite firstn_app. rewrite PL. rewrite (firstn_all2 (sort_insert p a)) by (rewrite PL; lia).
        replace (length a + 1 - Datatypes.S (length a)) with 0 by lia. cbn [firstn]. rewrite app_nil_r.
        rewrite (ridx_nth _ _ p) by (rewrite PL; lia). cbn [rbind]. rewrite <- nth_last, PL. replace (Datatypes.S (length a) - 1) with (length a) by lia. reflexivity.
      + apply Nat.leb_gt in K. rewrite (proj2 (Nat.ltb_lt _ _)) by lia.
        rewrite add_scan_spec; auto; [|rewrite app_length; cbn; lia|].
        * cbn [rbind]. rewrite sort_insert_last by exact C. rewrite firstn_all2 by (rewrite app_length, PL; cbn; lia).
          rewrite (ridx_nth _ _ p) by (rewrite app_length, PL; cbn; lia). cbn [rbind]. rewrite <- nth_last, app_length, PL.
          cbn [length]. replace (Datatypes.S (length a) + 1 - 1) with (length a + 1) by lia. reflexivity.
        * rewrite skipn_app, skipn_all, Nat.sub_diag. cbn. intros y [<-|[]]. exact C.
  Qed.

  (** ** Invariants *)

  (** [ps] are genuine candidates from [seen]. *)
  Definition gen (k : nat) (seen : list nat) (ps : list (nat * F)) : Prop :=
    (forall p, In p ps -> In (fst p) seen /\ snd p = D (fst p)) /\ NoDup (map fst ps) /\ psorted ps /\
    length ps <= k /\ ps <> [].
  (** ... and nothing seen but left out is nearer. *)
  Definition topk (seen : list nat) (ps : list (nat * F)) : Prop :=
    forall j p, In j seen -> ~ In j (map fst ps) -> In p ps -> nltb (D j) (snd p) = false.

  Definition nonan (U : list nat) : Prop := forall i, In i U -> nnan (D i) = false.

  Lemma gen_nonan k seen ps : nonan seen -> gen k seen ps -> pnonan ps.
  Proof. intros NN (G & _) p Hp. destruct (G p Hp) as [A ->]. now apply NN. Qed.

  Lemma gen_incl k s s' ps : (forall i, In i s -> In i s') -> gen k s ps -> gen k s' ps.
  Proof. intros I (A & B & C & E & Z). repeat split; auto; try apply A; auto. apply I. now apply A. Qed.

  Lemma NoDup_firstn {A} n (l : list A) : NoDup l -> NoDup (firstn n l).
  Proof. revert l. induction n; intros [|x l] H; cbn; try constructor; inversion H; subst; auto. intros Q. apply H2. clear -Q. revert l Q. induction n; intros [|y l]; cbn; intuition. Qed.

  Lemma In_firstn {A} n (l : list A) x : In x (firstn n l) -> In x l.
  Proof. revert l. induction n; intros [|y l]; cbn; intuition. Qed.

  Lemma gen_insert k seen ps i : 1 <= k -> nonan (i :: seen) -> ~ In i seen -> gen k seen ps ->
    gen k (i :: seen) (firstn k (sort_insert (i, D i) ps)).
  Proof.
    intros K NN Ni G. assert (PN := gen_nonan k seen ps (fun j H => NN j (or_intror H)) G).
    destruct G as (A & B & C & E & Z).
    assert (P := sort_insert_perm (i, D i) ps).
    repeat split.
    - apply In_firstn in H. apply (Permutation_in _ (Permutation_sym P)) in H. destruct H as [<-|H]; [now left|]. right. now apply A.
    - apply In_firstn in H. apply (Permutation_in _ (Permutation_sym P)) in H. destruct H as [<-|H]; auto. now apply A.
    - rewrite <- firstn_map. apply NoDup_firstn.
      eapply Permutation_NoDup; [apply Permutation_map; exact P|]. cbn. constructor; auto.
      intros Q. apply in_map_iff in Q. destruct Q as (q & Q1 & Q2). apply Ni. rewrite <- Q1. now apply A.
    - apply (psorted_app _ (skipn k (sort_insert (i, D i) ps))). rewrite firstn_skipn. now apply sort_insert_sorted.
    - apply firstn_le_length.
    - destruct k; [lia|]. destruct (sort_insert (i, D i) ps) eqn:Q; [|easy].
      apply Permutation_length in P. rewrite ?Q in P. discriminate.
  Qed.

  Lemma in_firstn_skipn {A} k (l : list A) x : In x l -> In x (firstn k l) \/ In x (skipn k l).
  Proof. intros H. rewrite <- (firstn_skipn k l) in H. now apply in_app_or. Qed.

  Lemma topk_insert k seen ps i : nonan (i :: seen) -> ~ In i seen -> gen k seen ps -> length ps = k -> topk seen ps ->
    topk (i :: seen) (firstn k (sort_insert (i, D i) ps)).
  Proof.
    intros NN Ni G L T j p Hj Nj Hp. assert (PN := gen_nonan k seen ps (fun j H => NN j (or_intror H)) G).
    destruct G as (A & B & C & E & Z). set (full := sort_insert (i, D i) ps) in *.
    assert (P : Permutation ((i, D i) :: ps) full) by apply sort_insert_perm.
    assert (S : psorted full) by (now apply sort_insert_sorted).
    assert (Af : forall q, In q full -> In (fst q) (i :: seen) /\ snd q = D (fst q)).
    { intros q Hq. apply (Permutation_in _ (Permutation_sym P)) in Hq. destruct Hq as [<-|Hq]; [split; cbn; auto|].
      destruct (A q Hq). split; [now right|auto]. }
    rewrite <- (firstn_skipn k full) in S. apply psorted_app in S. destruct S as (_ & _ & S).
    destruct (in_dec Nat.eq_dec j (map fst full)) as [Jf|Jf].
    - apply in_map_iff in Jf. destruct Jf as (q & Q1 & Q2). destruct (in_firstn_skipn k _ _ Q2) as [Q|Q].
      + exfalso. apply Nj. rewrite <- Q1. now apply in_map.
      + specialize (S p q Hp Q). unfold ple in S. rewrite (proj2 (Af q Q2)), Q1 in S. exact S.
    - assert (Hs : In j seen /\ ~ In j (map fst ps)).
      { destruct Hj as [<-|Hj].
        - exfalso. apply Jf. apply (Permutation_in _ (Permutation_map fst P)). now left.
        - split; auto. intros Q. apply Jf. apply (Permutation_in _ (Permutation_map fst P)). now right. }
      destruct Hs as [Hs1 Hs2].
      assert (Hp' := In_firstn _ _ _ Hp). apply (Permutation_in _ (Permutation_sym P)) in Hp'. destruct Hp' as [<-|Hp'].
      + assert (exists e, In e (skipn k full)) as (e & He).
        { assert (length full = Datatypes.S k) by (rewrite <- (Permutation_length P); cbn; lia).
          assert (length (skipn k full) = 1) by (rewrite skipn_length; lia). destruct (skipn k full) as [|e ?]; [discriminate|]. exists e. now left. }
        assert (He' : In e ps).
        { assert (In e full). { rewrite <- (firstn_skipn k full). apply in_or_app. now right. }
          apply (Permutation_in _ (Permutation_sym P)) in H. destruct H as [<-|]; auto. exfalso.
          assert (ND : NoDup full). { apply (NoDup_map_inv fst). eapply Permutation_NoDup; [apply Permutation_map; exact P|]. cbn. constructor; auto.
            intros Q. apply in_map_iff in Q. destruct Q as (q & Q1 & Q2). apply Ni. rewrite <- Q1. now apply A. }
          rewrite <- (firstn_skipn k full) in ND. clear -ND Hp He. induction (firstn k full) as [|x l IH]; [destruct Hp|].
          inversion ND; subst. destruct Hp as [->|Hp]; auto. apply H1. apply in_or_app. now right. }
        apply (no_ntrans _ (snd e)).
        * now apply PN.
        * now apply T.
        * exact (S _ _ Hp He).
      + now apply T.
  Qed.

  Lemma sorted_last ps p d : psorted ps -> In p ps -> ple p (last ps d).
  Proof.
    intros S Hp. destruct (@exists_last _ ps) as (a & z & ->). { now destruct ps. } rewrite last_last.
    apply psorted_app in S. destruct S as (_ & _ & S). apply in_app_or in Hp. destruct Hp as [Hp|[<-|[]]].
    - apply S; cbn; auto.
    - apply no_irr.
  Qed.
  Lemma last_In {A} (l : list A) d : l <> [] -> In (last l d) l.
  Proof. intros H. destruct (exists_last H) as (a & z & ->). rewrite last_last. apply in_or_app. cbn; auto. Qed.

  Lemma topk_skip k seen ps js d : nonan seen -> gen k seen ps -> topk seen ps ->
    (forall j, In j js -> nltb (D j) (snd (last ps d)) = false) ->
    topk (js ++ seen) ps.
  Proof.
    intros NN G T L j p Hj Nj Hp. apply in_app_or in Hj. destruct Hj as [Hj|Hj]; [|now apply T].
    assert (PN := gen_nonan k seen ps NN G). destruct G as (A & B & C & E & Z).
    apply (no_ntrans _ (snd (last ps d))); auto.
    - apply PN. now apply last_In.
    - now apply sorted_last.
  Qed.

  (** The offering loop. *)
  Lemma offer_gen k js : 1 <= k -> forall seen ps cur, nonan (js ++ seen) -> NoDup (js ++ seen) -> gen k seen ps ->
    exists ps', offer k (map (fun j => (j, D j)) js) ps cur = Ok ps' /\ gen k (js ++ seen) ps'.
  Proof.
    intros K. induction js as [|j js IH]; intros seen ps cur NN ND G; cbn [map offer app].
    - exists ps. auto.
    - inversion ND as [|? ? Nj ND']; subst.
      assert (PM : forall i, In i (js ++ j :: seen) <-> In i (j :: js ++ seen)).
      { intros i. rewrite in_app_iff. cbn. rewrite in_app_iff. tauto. }
      assert (ND2 : NoDup (js ++ j :: seen)) by (now apply NoDup_cons_app || (eapply Permutation_NoDup; [apply Permutation_middle|]; now constructor)).
      assert (Nj' : ~ In j seen) by (intros Q; apply Nj; apply in_or_app; now right).
      destruct (nltb (D j) cur).
      + assert (G2 : gen k (j :: seen) (firstn k (sort_insert (j, D j) ps))).
        { apply gen_insert; auto. intros i Hi. apply NN. cbn. rewrite in_app_iff. cbn in Hi. tauto. }
        rewrite add_spec; try apply G.
        * cbn [rbind]. destruct (IH (j :: seen) _ (snd (last (firstn k (sort_insert (j, D j) ps)) (j, D j))) (fun i Hi => NN i (proj1 (PM i) Hi)) ND2 G2) as (ps' & E & G').
          exists ps'. split; auto. eapply gen_incl; [|exact G']. intros i. apply PM.
        * apply NN. now left.
        * apply (gen_nonan k seen); auto. intros i Hi. apply NN. right. apply in_or_app. now right.
      + destruct (IH (j :: seen) ps cur (fun i Hi => NN i (proj1 (PM i) Hi)) ND2) as (ps' & E & G').
        * eapply gen_incl; [|exact G]. intros i Hi. now right.
        * exists ps'. split; auto. eapply gen_incl; [|exact G']. intros i. apply PM.
  Qed.

  Lemma topk_perm s s' ps : (forall i, In i s' -> In i s) -> topk s ps -> topk s' ps.
  Proof. intros I T j p Hj. apply T. auto. Qed.

  Lemma offer_topk k js : 1 <= k -> forall seen ps d, nonan (js ++ seen) -> NoDup (js ++ seen) -> gen k seen ps ->
    length ps = k -> topk seen ps ->
    exists ps', offer k (map (fun j => (j, D j)) js) ps (snd (last ps d)) = Ok ps' /\ gen k (js ++ seen) ps' /\
      length ps' = k /\ topk (js ++ seen) ps'.
  Proof.
    intros K. induction js as [|j js IH]; intros seen ps d NN ND G L T; cbn [map offer app].
    - exists ps. auto.
    - inversion ND as [|? ? Nj ND']; subst.
      assert (PM : forall i, In i (js ++ j :: seen) <-> In i (j :: js ++ seen)).
      { intros i. rewrite in_app_iff. cbn. rewrite in_app_iff. tauto. }
      assert (ND2 : NoDup (js ++ j :: seen)) by (eapply Permutation_NoDup; [apply Permutation_middle|]; now constructor).
      assert (Nj' : ~ In j seen) by (intros Q; apply Nj; apply in_or_app; now right).
      assert (NNs : nonan (j :: seen)) by (intros i Hi; apply NN; cbn; rewrite in_app_iff; cbn in Hi; tauto).
      destruct (nltb (D j) (snd (last ps d))) eqn:C.
      + assert (G2 : gen (length ps) (j :: seen) (firstn (length ps) (sort_insert (j, D j) ps))) by (now apply gen_insert).
        rewrite add_spec; try apply G.
        * cbn [rbind].
          destruct (IH (j :: seen) _ (j, D j) (fun i Hi => NN i (proj1 (PM i) Hi)) ND2 G2) as (ps' & E & G' & L' & T').
          -- rewrite firstn_length. rewrite <- (Permutation_length (sort_insert_perm _ _)). cbn. lia.
          -- now apply topk_insert.
          -- exists ps'. split; [exact E|]. split; [eapply gen_incl; [|exact G']; intros i; apply PM|]. split; auto. eapply topk_perm; [|exact T']. intros i. apply PM.
        * apply NN. now left.
        * apply (gen_nonan (length ps) seen); auto. intros i Hi. apply NNs. now right.
      + destruct (IH (j :: seen) ps d (fun i Hi => NN i (proj1 (PM i) Hi)) ND2) as (ps' & E & G' & L' & T').
        * eapply gen_incl; [|exact G]. intros i Hi. now right.
        * reflexivity.
        * apply (topk_skip (length ps) seen ps [j] d); auto. intros i Hi. apply NNs. now right. intros i [<-|[]]. exact C.
        * exists ps'. split; [exact E|]. split; [eapply gen_incl; [|exact G']; intros i; apply PM|]. split; auto. eapply topk_perm; [|exact T']. intros i. apply PM.
  Qed.

  (** Initial container: the first [k] of a sorted list. *)
  Lemma new_spec k js : 1 <= k -> js <> [] -> nonan js -> NoDup js ->
    exists ps, knearest_new k js (map D js) = Ok ps /\ gen k js ps /\ length ps = min k (length js) /\ topk js ps.
  Proof.
    intros K NE NN ND. unfold knearest_new.
    assert (E : combine js (map D js) = map (fun j => (j, D j)) js) by (clear; induction js; cbn; congruence).
    rewrite E. set (l := map (fun j => (j, D j)) js).
    assert (PN : pnonan l). { intros p Hp. apply in_map_iff in Hp. destruct Hp as (j & <- & Hj). now apply NN. }
    replace (existsb (fun p => nnan (snd p)) l) with false.
    2:{ symmetry. apply not_true_iff_false. intros Q. apply existsb_exists in Q. destruct Q as (p & Hp & Q). rewrite PN in Q; auto. discriminate. }
    rewrite andb_false_r. set (sp := sort_pairs l). exists (firstn k sp). split; auto.
    assert (P : Permutation l sp) by apply sort_pairs_perm.
    assert (Af : forall q, In q sp -> In (fst q) js /\ snd q = D (fst q)).
    { intros q Hq. apply (Permutation_in _ (Permutation_sym P)) in Hq. apply in_map_iff in Hq. destruct Hq as (j & <- & Hj). auto. }
    assert (S : psorted sp) by (now apply sort_pairs_sorted).
    assert (Lsp : length sp = length js) by (rewrite <- (Permutation_length P); unfold l; now rewrite map_length).
    split; [|split].
    - repeat split.
      + apply Af. now apply In_firstn in H.
      + apply Af. now apply In_firstn in H.
      + rewrite <- firstn_map. apply NoDup_firstn. eapply Permutation_NoDup; [apply Permutation_map; exact P|].
        unfold l. rewrite map_map. cbn. now rewrite map_id.
      + apply (psorted_app _ (skipn k sp)). now rewrite firstn_skipn.
      + apply firstn_le_length.
      + destruct k; [lia|]. destruct sp; [|easy]. destruct js; [easy|discriminate].
    - rewrite firstn_length. lia.
    - intros j p Hj Nj Hp. rewrite <- (firstn_skipn k sp) in S. apply psorted_app in S. destruct S as (_ & _ & S).
      assert (Q : In (j, D j) sp). { apply (Permutation_in _ P). unfold l. apply in_map_iff. eauto. }
      destruct (in_firstn_skipn k _ _ Q) as [Q'|Q'].
      + exfalso. apply Nj. apply in_map_iff. exists (j, D j). auto.
      + exact (S _ _ Hp Q').
  Qed.

  (** Conclusion about the extracted results. *)
  Lemma gen_genuine n k seen ps : (forall i, In i seen -> i < n) -> gen k seen ps ->
    genuine n D (map fst ps) (map snd ps).
  Proof.
    intros U (A & B & C & E & Z). repeat split; auto.
    - intros i Hi. apply in_map_iff in Hi. destruct Hi as (p & <- & Hp). apply U. now apply A.
    - clear -A. rewrite map_map. apply map_ext_in. intros p Hp. now apply A.
    - intros a b Hab Hb. rewrite map_length in Hb.
      rewrite !(nth_indep (map snd ps) nzero (snd (0, D 0))), !map_nth by (rewrite map_length; lia).
      clear -C Hab Hb. revert a b Hab Hb. unfold psorted in C. induction C as [|p l S IH H]; cbn; intros a b Hab Hb; [lia|].
      destruct b; [lia|]. destruct a.
      + rewrite Forall_forall in H. apply H. apply nth_In. lia.
      + apply IH; lia.
  Qed.
  Lemma topk_nearest n k seen ps : (forall i, In i seen <-> i < n) -> gen k seen ps -> length ps = k -> topk seen ps ->
    k_nearest n k D (map fst ps) (map snd ps).
  Proof.
    intros U G L T. split; [|split].
    - apply (gen_genuine n k seen); auto. intros. now apply U.
    - now rewrite map_length.
    - intros i j Hi Hj Nj. apply in_map_iff in Hi. destruct Hi as (p & <- & Hp).
      replace (D (fst p)) with (snd p) by (now apply G). apply T; auto. now apply U.
  Qed.
End K.
