(** * DBSCAN labels the density-connected components of core rows *)
From Coq Require Import List Arith Lia Bool Relations Permutation.
From Verif Require Import Base BaseLemmas Num NumOrd Linalg Model_DBSCAN Spec_DBSCAN.
Import ListNotations.

Section P.
  Context {F : Type} {N : Num F} (eps : F) (mp : nat) (inputs : matrix F).
  Notation n := (nrows inputs).
  Notation row i := (nth i (mrows inputs) []).
  Definition nearb (i j : nat) : bool := nltb (edist (row j) (row i)) eps.
  Definition nb (i : nat) : list nat := region_query eps inputs (row i).
  Definition coreb (i : nat) : bool := mp <=? length (nb i).

  Lemma nb_filter i : nb i = filter (nearb i) (seq 0 n).
  Proof.
    unfold nb, region_query, nearb, nrows. set (rows := mrows inputs). set (pt := nth i rows []).
    assert (G : forall rs k, (forall a, a < length rs -> nth (k + a) rows [] = nth a rs []) ->
      map fst (filter (fun p : nat * list F => nltb (edist (snd p) pt) eps) (combine (seq k (length rs)) rs)) =
      filter (fun j => nltb (edist (nth j rows []) pt) eps) (seq k (length rs))).
    { induction rs as [|r rs IH]; intros k H; cbn [length seq combine filter map]; auto.
      pose proof (H 0 ltac:(cbn; lia)) as H0. rewrite Nat.add_0_r in H0. cbn [nth] in H0. rewrite H0. cbn [snd].
      assert (IH' := IH (S k)). rewrite <- IH'.
      - destruct (nltb (edist r pt) eps); reflexivity.
      - intros a Ha. specialize (H (S a) ltac:(cbn; lia)). cbn [nth] in H. now replace (S k + a) with (k + S a) by lia. }
    apply G. reflexivity.
  Qed.
  Lemma nb_In i j : In j (nb i) <-> j < n /\ nearb i j = true.
  Proof. rewrite nb_filter, filter_In, in_seq. intuition lia. Qed.

  Definition near (i j : nat) : Prop := nearb i j = true.
  Lemma coreb_core i : i < n -> (coreb i = true <-> core n near mp i).
  Proof.
    intros Hi. unfold coreb, core. rewrite Nat.leb_le. split.
    - intros H. split; auto. exists (firstn mp (nb i)). split; [|split].
      + assert (ND : NoDup (nb i)) by (rewrite nb_filter; apply NoDup_filter, seq_NoDup).
        rewrite <- (firstn_skipn mp) in ND. now apply NoDup_app_l in ND || (clear - ND; revert ND; generalize (firstn mp (nb i)) (skipn mp (nb i)); intros l1 l2; induction l1; cbn; intros ND; constructor; inversion ND; subst; [rewrite in_app_iff in *; tauto|auto]).
      + now apply firstn_length_le.
      + intros j Hj. apply nb_In. rewrite <- (firstn_skipn mp). apply in_or_app. now left.
    - intros (_ & S & ND & <- & HS). apply NoDup_incl_length; auto. intros j Hj. now apply nb_In, HS.
  Qed.

  Definition vis (w : work) i : bool := nth i (w_visited w) false.
  Definition lab (w : work) i : option nat := nth i (w_clusters w) None.
  Definition wf (w : work) : Prop :=
    length (w_visited w) = n /\ length (w_clusters w) = n /\ NoDup (w_queries w) /\
    (forall i, In i (w_queries w) <-> vis w i = true).
  Definition unv (w : work) : nat := count_occ Bool.bool_dec (w_visited w) false.

  Lemma vis_lt w i : wf w -> vis w i = true -> i < n.
  Proof.
    intros (A & _) H. unfold vis in H. destruct (Nat.lt_ge_cases i n) as [|G]; auto. rewrite nth_overflow in H by lia. discriminate.
  Qed.
  Lemma nth_upd {A} (l : list A) i x l' j d : upd l i x = Some l' -> nth j l' d = if j =? i then x else nth j l d.
  Proof.
    intros U. pose proof (upd_nth_error l i x l' j U) as E. destruct (Nat.eqb_spec j i) as [->|].
    - now apply nth_error_nth.
    - destruct (nth_error l j) eqn:E2.
      + rewrite (nth_error_nth _ _ d E), (nth_error_nth _ _ d E2). reflexivity.
      + rewrite !nth_overflow; auto; now apply nth_error_None.
  Qed.

  Lemma visit_spec w idx : wf w -> idx < n -> vis w idx = false -> exists w1, visit w idx = Some w1 /\ wf w1 /\
    (forall i, vis w1 i = true <-> i = idx \/ vis w i = true) /\ (forall i, lab w1 i = lab w i) /\ unv w = S (unv w1).
  Proof.
    intros (L1 & L2 & ND & Q) H V. unfold visit.
    destruct (upd_Some (w_visited w) idx true) as (l1 & a & l2 & E & El & U); [lia|]. rewrite U.
    eexists. split; [reflexivity|].
    assert (VV : forall i, nth i (l1 ++ true :: l2) false = true <-> i = idx \/ vis w i = true).
    { intros i. rewrite (nth_upd _ _ _ _ i false U). unfold vis. destruct (Nat.eqb_spec i idx); intuition. }
    split; [|split; [|split]].
    - split; [cbn; rewrite (upd_length _ _ _ _ U); auto|]. split; [auto|]. split; cbn [w_queries].
      + constructor; auto. rewrite Q. congruence.
      + intros i. unfold vis at 1. cbn [w_visited In]. rewrite VV, Q. intuition.
    - exact VV.
    - reflexivity.
    - unfold unv. cbn [w_visited]. rewrite E, !count_occ_app. cbn [count_occ].
      assert (a = false) as ->. { unfold vis in V. rewrite E, <- El, nth_middle in V. exact V. }
      destruct (Bool.bool_dec true false); [discriminate|]. destruct (Bool.bool_dec false false); [lia|easy].
  Qed.
  Lemma label_spec w idx c : wf w -> idx < n -> exists w1, label w idx c = Some w1 /\ wf w1 /\
    (forall i, vis w1 i = vis w i) /\ (forall i, lab w1 i = if i =? idx then Some c else lab w i) /\ unv w1 = unv w.
  Proof.
    intros (L1 & L2 & ND & Q) H. unfold label.
    destruct (upd_Some (w_clusters w) idx (Some c)) as (l1 & a & l2 & E & El & U); [lia|]. rewrite U.
    eexists. split; [reflexivity|]. split; [|split; [reflexivity|split; [|reflexivity]]].
    - split; [auto|]. split; [cbn; rewrite (upd_length _ _ _ _ U); auto|]. split; auto.
    - intros i. unfold lab at 1. cbn [w_clusters]. now rewrite (nth_upd _ _ _ _ i None U).
  Qed.

  Definition closed (w : work) x : Prop := forall y, In y (nb x) -> vis w y = true.
  Definition new (w w' : work) i : Prop := vis w' i = true /\ vis w i = false.
  Notation link := (fun i j => core n near mp i /\ core n near mp j /\ near i j).

  Record Step (c root : nat) (w w' : work) : Prop := {
    st_wf : wf w';
    st_mono : forall i, vis w i = true -> vis w' i = true;
    st_new : forall i, new w w' i -> coreb i = true -> lab w' i = Some c /\ chain n near mp root i /\ closed w' i;
    st_old : forall i, ~ (new w w' i /\ coreb i = true) -> lab w' i = lab w i;
    st_unv : unv w' <= unv w
  }.
  Lemma new_dec w w' i : {new w w' i} + {~ new w w' i}.
  Proof. unfold new. destruct (vis w' i), (vis w i); (left; now split) || (right; intros [? ?]; discriminate). Qed.
  Lemma Step_refl c root w : wf w -> Step c root w w.
  Proof. intros W. constructor; auto. intros i [A B]. congruence. Qed.
  Lemma Step_trans c root w w2 w3 : Step c root w w2 -> Step c root w2 w3 -> Step c root w w3.
  Proof.
    intros A B. constructor.
    - apply B.
    - intros i H. apply (st_mono _ _ _ _ B), (st_mono _ _ _ _ A), H.
    - intros i [H1 H2] C. destruct (vis w2 i) eqn:V.
      + destruct (st_new _ _ _ _ A i (conj V H2) C) as (P1 & P2 & P3). split; [|split; auto].
        * rewrite (st_old _ _ _ _ B); auto. intros [[_ Q] _]. congruence.
        * intros y Hy. apply (st_mono _ _ _ _ B), P3, Hy.
      + apply (st_new _ _ _ _ B i (conj H1 V) C).
    - intros i H. destruct (vis w2 i) eqn:V.
      + rewrite (st_old _ _ _ _ B) by (intros [[_ Q] _]; congruence). apply (st_old _ _ _ _ A). intros [Q C]. apply H. split; auto.
        split; [|apply Q]. now apply (st_mono _ _ _ _ B).
      + rewrite (st_old _ _ _ _ B).
        * apply (st_old _ _ _ _ A). intros [[Q _] _]. congruence.
        * intros [Q C]. apply H. split; auto. split; [apply Q|]. destruct (vis w i) eqn:V2; auto. apply (st_mono _ _ _ _ A) in V2. congruence.
    - pose proof (st_unv _ _ _ _ A). pose proof (st_unv _ _ _ _ B). lia.
  Qed.

  (** The result of expanding from [idx]. *)
  Record Expanded (c idx : nat) (w w' : work) : Prop := {
    ex_wf : wf w';
    ex_mono : forall i, vis w i = true -> vis w' i = true;
    ex_root : lab w' idx = Some c /\ closed w' idx;
    ex_new : forall i, new w w' i -> coreb i = true -> lab w' i = Some c /\ chain n near mp idx i /\ closed w' i;
    ex_old : forall i, i <> idx -> ~ (new w w' i /\ coreb i = true) -> lab w' i = lab w i;
    ex_unv : unv w' <= unv w
  }.

  Lemma nth_row i : i < n -> nth_error (mrows inputs) i = Some (row i).
  Proof. intros H. now apply nth_error_nth'. Qed.

  Lemma visit_all_spec c root rec (fuel : nat) :
    (forall w idx, wf w -> idx < n -> vis w idx = true -> coreb idx = true -> unv w < fuel ->
       exists w', rec w idx (nb idx) = Some w' /\ Expanded c idx w w') ->
    root < n -> coreb root = true ->
    forall nbs w, (forall j, In j nbs -> In j (nb root)) -> wf w -> unv w <= fuel ->
    exists w', visit_all eps mp inputs rec nbs w = Some w' /\ Step c root w w' /\ (forall j, In j nbs -> vis w' j = true).
  Proof.
    intros REC Hr Cr nbs. induction nbs as [|j nbs IH]; intros w IN W U; cbn [visit_all].
    - exists w. split; auto. split; [now apply Step_refl|easy].
    - assert (Hj : In j (nb root)) by (apply IN; now left). apply nb_In in Hj. destruct Hj as [Hj Nj].
      assert (IN' : forall j, In j nbs -> In j (nb root)) by (intros; apply IN; now right).
      assert (EV : nth_error (w_visited w) j = Some (vis w j)). { apply nth_error_nth'. rewrite (proj1 W). exact Hj. }
      rewrite EV. destruct (vis w j) eqn:V.
      + destruct (IH w IN' W U) as (w' & E & S & A). exists w'. split; auto. split; auto. intros k [<-|Hk]; auto. now apply (st_mono _ _ _ _ S).
      + destruct (visit_spec w j W Hj V) as (w1 & E1 & W1 & V1 & L1 & U1). rewrite E1, (nth_row j Hj). fold (nb j). fold (coreb j).
        destruct (coreb j) eqn:Cj.
        * destruct (REC w1 j W1 Hj) as (w2 & E2 & X).
          { apply V1. now left. } { exact Cj. } { lia. }
          cbn zeta. rewrite E2.
          assert (CH : chain n near mp root j). { apply rt_step. split; [now apply coreb_core|]. split; [now apply coreb_core|exact Nj]. }
          assert (S : Step c root w w2).
          { constructor.
            - apply X.
            - intros i Hi. apply (ex_mono _ _ _ _ X), V1. now right.
            - intros i [H1 H2] C. destruct (Nat.eq_dec i j) as [->|Nij].
              + destruct (ex_root _ _ _ _ X). auto.
              + destruct (ex_new _ _ _ _ X i) as (P1 & P2 & P3); auto.
                * split; auto. destruct (vis w1 i) eqn:V2; auto. apply V1 in V2. destruct V2; congruence.
                * split; auto. split; auto. eapply rt_trans; eauto.
            - intros i H. assert (i <> j). { intros ->. apply H. split; auto. split; auto. apply (ex_mono _ _ _ _ X), V1. now left. }
              rewrite (ex_old _ _ _ _ X); auto. intros [[Q1 Q2] C]. apply H. split; auto. split; auto.
              destruct (vis w i) eqn:V2; auto. assert (vis w1 i = true) by (apply V1; now right). congruence.
            - pose proof (ex_unv _ _ _ _ X). lia. }
          destruct (IH w2 IN' (st_wf _ _ _ _ S)) as (w' & E & S' & A). { pose proof (st_unv _ _ _ _ S). lia. }
          exists w'. split; auto. split; [eapply Step_trans; eauto|]. intros k [<-|Hk]; auto. apply (st_mono _ _ _ _ S'). apply (ex_mono _ _ _ _ X), V1. now left.
        * assert (S : Step c root w w1).
          { constructor; auto.
            - intros i Hi. apply V1. now right.
            - intros i [H1 H2] C. apply V1 in H1. destruct H1; congruence.
            - lia. }
          cbn zeta. destruct (IH w1 IN' W1) as (w' & E & S' & A). { lia. }
          exists w'. split; auto. split; [eapply Step_trans; eauto|]. intros k [<-|Hk]; auto. apply (st_mono _ _ _ _ S'), V1. now left.
  Qed.

  Lemma expand_spec c fuel : forall w idx, wf w -> idx < n -> vis w idx = true -> coreb idx = true -> unv w < fuel ->
    exists w', expand_cluster eps mp inputs fuel c w idx (nb idx) = Some w' /\ Expanded c idx w w'.
  Proof.
    induction fuel as [|fuel IH]; intros w idx W Hi V C U; [lia|]. cbn [expand_cluster].
    destruct (label_spec w idx c W Hi) as (w1 & -> & W1 & V1 & L1 & U1).
    destruct (visit_all_spec c idx (expand_cluster eps mp inputs fuel c) fuel IH Hi C (nb idx) w1) as (w' & E & S & A); auto; [lia|].
    exists w'. split; auto.
    assert (NW : forall i, new w w' i <-> new w1 w' i) by (intros i; unfold new; now rewrite V1).
    constructor.
    - apply S.
    - intros i H. apply (st_mono _ _ _ _ S). now rewrite V1.
    - split; [|exact A]. rewrite (st_old _ _ _ _ S); [|intros [[_ Q] _]; rewrite V1 in Q; congruence]. now rewrite L1, Nat.eqb_refl.
    - intros i H. apply NW in H. apply (st_new _ _ _ _ S i H).
    - intros i Ni H. rewrite (st_old _ _ _ _ S) by (now rewrite <- NW). rewrite L1. now rewrite (proj2 (Nat.eqb_neq _ _) Ni).
    - pose proof (st_unv _ _ _ _ S). lia.
  Qed.

  (** ** The outer loop *)
  Hypothesis sym : forall i j, i < n -> j < n -> nearb i j = nearb j i.

  Record Inv (idx k : nat) (w : work) : Prop := {
    i_wf : wf w;
    i_vis : forall j, j < idx -> j < n -> vis w j = true;
    i_closed : forall x, vis w x = true -> coreb x = true -> closed w x;
    i_lab : forall x, lab w x <> None <-> vis w x = true /\ coreb x = true;
    i_lt : forall x c, lab w x = Some c -> c < k;
    i_same : forall x y, vis w x = true -> vis w y = true -> coreb x = true -> coreb y = true ->
              (lab w x = lab w y <-> chain n near mp x y);
    i_used : forall c, c < k -> exists j, j < idx /\ lab w j = Some c;
    i_order : forall i c c', lab w i = Some c -> c' < c -> exists j, j < i /\ lab w j = Some c'
  }.

  Lemma chain_sym x y : chain n near mp x y -> chain n near mp y x.
  Proof.
    induction 1 as [a b (A & B & C)| |a b c _ IH1 _ IH2].
    - apply rt_step. split; auto. split; auto. unfold near in *. rewrite sym; auto; [apply B|apply A].
    - apply rt_refl.
    - eapply rt_trans; eauto.
  Qed.
  (** Visited core rows are closed under chains. *)
  Lemma chain_visited idx k w : Inv idx k w -> forall x y, chain n near mp x y -> vis w x = true -> coreb x = true -> vis w y = true /\ coreb y = true.
  Proof.
    intros I x y H. apply clos_rt_rt1n in H. induction H as [|x y z (A & B & C) _ IH]; auto. intros V Cx.
    assert (coreb y = true) by (apply coreb_core; [apply B|exact B]). apply IH; auto.
    apply (i_closed _ _ _ I x V Cx). apply nb_In. split; auto. apply B.
  Qed.

  Lemma Inv_skip idx k w : Inv idx k w -> vis w idx = true -> Inv (S idx) k w.
  Proof.
    intros I V. constructor; try apply I.
    - intros j Hj. destruct (Nat.eq_dec j idx) as [->|]; auto. apply (i_vis _ _ _ I). lia.
    - intros c Hc. destruct (i_used _ _ _ I c Hc) as (j & A & B). exists j. auto.
  Qed.
  Lemma Inv_noise idx k w w1 : Inv idx k w -> idx < n -> vis w idx = false -> coreb idx = false -> wf w1 ->
    (forall i, vis w1 i = true <-> i = idx \/ vis w i = true) -> (forall i, lab w1 i = lab w i) -> Inv (S idx) k w1.
  Proof.
    intros I Hi V C W1 V1 L1. constructor; auto.
    - intros j Hj Hn. apply V1. destruct (Nat.eq_dec j idx); auto. right. apply (i_vis _ _ _ I); auto. lia.
    - intros x Hx Cx y Hy. apply V1. right. apply V1 in Hx. destruct Hx as [->|Hx]; [congruence|]. now apply (i_closed _ _ _ I x Hx Cx).
    - intros x. rewrite L1, (i_lab _ _ _ I), V1. intuition. subst. congruence.
    - intros x c. rewrite L1. apply (i_lt _ _ _ I).
    - intros x y Hx Hy Cx Cy. rewrite !L1. apply V1 in Hx, Hy. destruct Hx as [->|Hx]; [congruence|]. destruct Hy as [->|Hy]; [congruence|]. now apply (i_same _ _ _ I).
    - intros c Hc. destruct (i_used _ _ _ I c Hc) as (j & A & B). exists j. rewrite L1. auto.
    - intros i c c'. rewrite L1. intros A B. destruct (i_order _ _ _ I i c c' A B) as (j & Q & R). exists j. rewrite L1. auto.
  Qed.

  Lemma Inv_expand idx k w w1 w2 : Inv idx k w -> idx < n -> vis w idx = false -> coreb idx = true -> wf w1 ->
    (forall i, vis w1 i = true <-> i = idx \/ vis w i = true) -> (forall i, lab w1 i = lab w i) ->
    Expanded k idx w1 w2 -> Inv (S idx) (S k) w2.
  Proof.
    intros I Hi V C W1 V1 L1 X.
    (* a labelled row of w2 is old or belongs to the new cluster *)
    assert (VW2 : forall x, vis w x = true -> vis w2 x = true) by (intros x Hx; apply (ex_mono _ _ _ _ X), V1; now right).
    assert (CASE : forall x, vis w2 x = true -> coreb x = true ->
       (vis w x = true /\ lab w2 x = lab w x) \/ (vis w x = false /\ lab w2 x = Some k /\ chain n near mp idx x /\ closed w2 x)).
    { intros x Hx Cx. destruct (vis w x) eqn:Vx.
      - left. split; auto. assert (x <> idx) by congruence. rewrite (ex_old _ _ _ _ X); auto.
        intros [[_ Q] _]. assert (vis w1 x = true) by (apply V1; now right). congruence.
      - right. split; auto. destruct (Nat.eq_dec x idx) as [->|Nx].
        + destruct (ex_root _ _ _ _ X). repeat split; auto. apply rt_refl.
        + destruct (ex_new _ _ _ _ X x) as (P1 & P2 & P3); auto.
          split; auto. destruct (vis w1 x) eqn:Q; auto. apply V1 in Q. destruct Q; congruence. }
    assert (NOV : forall x, vis w x = true -> coreb x = true -> ~ chain n near mp idx x).
    { intros x Vx Cx H. apply chain_sym in H. destruct (chain_visited idx k w I x idx H Vx Cx). congruence. }
    assert (LAB : forall x, ~ (vis w2 x = true /\ coreb x = true) -> lab w2 x = lab w x).
    { intros x H. assert (x <> idx). { intros ->. apply H. split; auto. apply (ex_mono _ _ _ _ X), V1. now left. }
      rewrite (ex_old _ _ _ _ X), L1; auto. intros [[Q _] Cx]. auto. }
    constructor.
    - apply X.
    - intros j Hj Hn. destruct (Nat.eq_dec j idx) as [->|]; [apply (ex_mono _ _ _ _ X), V1; now left|]. apply VW2, (i_vis _ _ _ I); auto. lia.
    - intros x Hx Cx. destruct (CASE x Hx Cx) as [(Vx & _)|(_ & _ & _ & Q)]; auto.
      intros y Hy. apply VW2. now apply (i_closed _ _ _ I x Vx Cx).
    - intros x. split.
      + intros H. destruct (vis w2 x) eqn:Q1; [destruct (coreb x) eqn:Q2; auto|].
        * exfalso. rewrite LAB in H by (intros [_ ?]; congruence). apply (i_lab _ _ _ I) in H. destruct H; congruence.
        * exfalso. rewrite LAB in H by (intros [? _]; congruence). apply (i_lab _ _ _ I) in H. destruct H as [H _]. apply VW2 in H. congruence.
      + intros [H1 H2]. destruct (CASE x H1 H2) as [(Vx & ->)|(_ & -> & _)]; [|discriminate]. now apply (i_lab _ _ _ I).
    - intros x c H. destruct (vis w2 x && coreb x) eqn:Q.
      + apply andb_prop in Q. destruct Q as [Q1 Q2]. destruct (CASE x Q1 Q2) as [(Vx & E)|(_ & E & _)]; rewrite E in H.
        * apply (i_lt _ _ _ I) in H. lia.
        * inversion H. lia.
      + rewrite LAB in H. { apply (i_lt _ _ _ I) in H. lia. } intros [Q1 Q2]. rewrite Q1, Q2 in Q. discriminate.
    - intros x y Hx Hy Cx Cy.
      destruct (CASE x Hx Cx) as [(Vx & Ex)|(Vx & Ex & Px & _)]; destruct (CASE y Hy Cy) as [(Vy & Ey)|(Vy & Ey & Py & _)]; rewrite Ex, Ey.
      + now apply (i_same _ _ _ I).
      + split.
        * intros E. apply (i_lt _ _ _ I) in E. lia.
        * intros H. exfalso. apply (NOV x); auto. eapply rt_trans; [exact Py|]. now apply chain_sym.
      + split.
        * intros E. symmetry in E. apply (i_lt _ _ _ I) in E. lia.
        * intros H. exfalso. apply (NOV y); auto. eapply rt_trans; eauto.
      + split; auto. intros _. eapply rt_trans; [apply chain_sym; exact Px|exact Py].
    - intros c Hc. destruct (Nat.eq_dec c k) as [->|].
      + exists idx. split; [lia|]. apply (ex_root _ _ _ _ X).
      + destruct (i_used _ _ _ I c) as (j & A & B); [lia|]. exists j. split; [lia|].
        assert (Q : lab w j <> None) by congruence. apply (i_lab _ _ _ I) in Q. destruct Q as [Q1 Q2].
        destruct (CASE j (VW2 j Q1) Q2) as [(_ & ->)|(Q & _)]; [auto|congruence].
    - intros i c c' H L. destruct (vis w2 i && coreb i) eqn:Q.
      + apply andb_prop in Q. destruct Q as [Q1 Q2]. destruct (CASE i Q1 Q2) as [(Vi & E)|(Vi & E & _)]; rewrite E in H.
        * destruct (i_order _ _ _ I i c c' H L) as (j & A & B). exists j. split; auto.
          assert (Q : lab w j <> None) by congruence. apply (i_lab _ _ _ I) in Q. destruct Q as [Q3 Q4].
          destruct (CASE j (VW2 j Q3) Q4) as [(_ & ->)|(Q & _)]; [auto|congruence].
        * inversion H; subst c. destruct (i_used _ _ _ I c' L) as (j & A & B). exists j. split.
          -- destruct (Nat.lt_ge_cases i idx) as [Hlt|]; [|lia]. rewrite (i_vis _ _ _ I i Hlt) in Vi; [discriminate|]. lia.
          -- assert (Q : lab w j <> None) by congruence. apply (i_lab _ _ _ I) in Q. destruct Q as [Q3 Q4].
             destruct (CASE j (VW2 j Q3) Q4) as [(_ & ->)|(Q & _)]; [auto|congruence].
      + rewrite LAB in H. 2:{ intros [Q1 Q2]. rewrite Q1, Q2 in Q. discriminate. }
        assert (Q' : lab w i <> None) by congruence. apply (i_lab _ _ _ I) in Q'. destruct Q' as [Q1 Q2]. rewrite (VW2 _ Q1), Q2 in Q. discriminate.
  Qed.

  Lemma unv_le w : wf w -> unv w <= n.
  Proof. intros (A & _). unfold unv. rewrite <- A. apply count_occ_bound. Qed.

  Lemma loop_spec fuel : n <= fuel -> forall rows idx k w, (forall a, a < length rows -> nth a rows [] = row (idx + a)) ->
    idx + length rows = n -> Inv idx k w ->
    exists w' k', train_loop eps mp inputs fuel rows idx k w = Some (w', k') /\ Inv n k' w'.
  Proof.
    intros FU. induction rows as [|r rows IH]; intros idx k w HR L I; cbn [train_loop length] in *.
    - exists w, k. split; auto. replace n with idx by lia. exact I.
    - assert (Hi : idx < n) by lia.
      assert (EV : nth_error (w_visited w) idx = Some (vis w idx)). { apply nth_error_nth'. rewrite (proj1 (i_wf _ _ _ I)). exact Hi. }
      assert (HR' : forall a, a < length rows -> nth a rows [] = row (S idx + a)).
      { intros a Ha. specialize (HR (S a) ltac:(lia)). cbn [nth] in HR. rewrite HR. f_equal. lia. }
      rewrite EV. destruct (vis w idx) eqn:V.
      + apply IH; auto; [lia|]. now apply Inv_skip.
      + destruct (visit_spec w idx (i_wf _ _ _ I) Hi V) as (w1 & -> & W1 & V1 & L1 & U1).
        assert (r = row idx) as ->. { specialize (HR 0 ltac:(lia)). rewrite Nat.add_0_r in HR. exact HR. }
        cbn zeta. fold (nb idx). fold (coreb idx). destruct (coreb idx) eqn:C.
        * destruct (expand_spec k fuel w1 idx W1 Hi) as (w2 & -> & X); auto.
          { apply V1. now left. } { pose proof (unv_le w (i_wf _ _ _ I)). lia. }
          apply IH; auto; [lia|]. eapply Inv_expand; eauto.
        * apply IH; auto; [lia|]. eapply Inv_noise; eauto.
  Qed.

  Theorem clustering_spec fuel : n <= fuel -> exists w k, clustering eps mp inputs fuel = Some (w, k) /\
    density_labels n near mp (w_clusters w) /\ Permutation (w_queries w) (seq 0 n) /\
    (forall i c, nth i (w_clusters w) None = Some c -> c < k) /\ (forall c, c < k -> exists i, nth i (w_clusters w) None = Some c).
  Proof.
    intros FU. unfold clustering.
    destruct (loop_spec fuel FU (mrows inputs) 0 0 (init_params inputs)) as (w & k & E & I); auto.
    - assert (NV : forall i, vis (init_params inputs) i = false).
      { intros i. unfold vis, init_params. cbn [w_visited]. destruct (nth_in_or_default i (repeat false n) false) as [H|H]; auto. now apply repeat_spec in H. }
      assert (NL : forall i, lab (init_params inputs) i = None).
      { intros i. unfold lab, init_params. cbn [w_clusters]. destruct (nth_in_or_default i (repeat (@None nat) n) None) as [H|H]; auto. now apply repeat_spec in H. }
      constructor.
      + split; [apply repeat_length|]. split; [apply repeat_length|]. split; [constructor|]. intros i. rewrite NV. cbn. split; [easy|discriminate].
      + lia.
      + intros x. rewrite NV. discriminate.
      + intros x. rewrite NL, NV. split; [easy|intros [? _]; discriminate].
      + intros x c. rewrite NL. discriminate.
      + intros x y. rewrite NV. discriminate.
      + lia.
      + intros i c c'. rewrite NL. discriminate.
    - exists w, k. split; [exact E|].
      assert (AV : forall i, i < n -> vis w i = true) by (intros i Hi; apply (i_vis _ _ _ I); auto).
      assert (CL : forall i, core n near mp i -> vis w i = true /\ coreb i = true). { intros i Hc. destruct (Hc) as [Hi _]. split; auto. now apply coreb_core. }
      destruct (i_wf _ _ _ I) as (A1 & A2 & A3 & A4).
      split; [|split; [|split]].
      + split; [exact A2|]. split; [|split].
        * intros i Hi. rewrite <- coreb_core by auto. change (nth i (w_clusters w) None) with (lab w i). rewrite (i_lab _ _ _ I). intuition.
        * intros i j Hi Hj. apply CL in Hi, Hj. apply (i_same _ _ _ I); tauto.
        * intros i c c'. apply (i_order _ _ _ I).
      + apply NoDup_Permutation; auto; [apply seq_NoDup|]. intros i. rewrite A4, in_seq. split; [intros H; apply (vis_lt w) in H; [lia|apply I]|intros H; apply AV; lia].
      + intros i c. apply (i_lt _ _ _ I).
      + intros c Hc. destruct (i_used _ _ _ I c Hc) as (j & _ & H). exists j. exact H.
  Qed.
End P.
