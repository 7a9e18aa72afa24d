(** * When the construction of a tree finishes *)
From Coq Require Import List Arith Lia Bool Permutation Reals Lra ZArith.
From Verif Require Import Base BaseLemmas Num NumOrd Linalg LinalgR Euclid Spec_Calc CalcR Model_KNN Spec_KNN
  Proof_KNearest Proof_Tree Proof_TreeBall.
Import ListNotations.

Section Gen.
  Context {F : Type} {N : Num F} {O : NumOrd F} {G : Type} (B : BinarySplit (F := F) G) (data : matrix F).
  Hypothesis BT : bs_total B data.
  Hypothesis C : 0 < mcols data.
  Notation boxed remains dmin dmax := (forall i, In i remains -> i < nrows data /\ lower data dmin i /\ upper data dmax i).

  Lemma argmax_ok (l : list F) : l <> [] -> exists p, argmax l = Ok p.
  Proof. destruct l; [easy|]. cbn. eauto. Qed.

  Lemma select_split_outcome fuel : forall remains dmin dmax, length dmin = mcols data -> length dmax = mcols data ->
    select_split fuel data remains dmin dmax = None \/ exists x, select_split fuel data remains dmin dmax = Some (Ok x).
  Proof.
    induction fuel as [|fuel IH]; intros remains dmin dmax L1 L2; cbn [select_split]; auto.
    destruct (argmax_ok (vsub dmax dmin)) as ([dm d] & ->).
    { intros Q. apply (f_equal (@length _)) in Q. unfold vsub in Q. rewrite map2_length, L1, L2 in Q. cbn in Q. lia. }
    destruct (filter _ remains); [|destruct (filter _ remains)]; eauto; apply IH; now rewrite ?vset_length.
  Qed.

  Lemma split_outcome leafsize fuel : forall remains dmin dmax, length dmin = mcols data -> length dmax = mcols data ->
    boxed remains dmin dmax ->
    split B fuel leafsize data remains dmin dmax = None \/ exists t, split B fuel leafsize data remains dmin dmax = Some (Ok t).
  Proof.
    induction fuel as [|fuel IH]; intros remains dmin dmax L1 L2 Bx; cbn [split]; auto.
    destruct (length remains <? leafsize); eauto.
    destruct (select_split_outcome fuel remains dmin dmax L1 L2) as [->|([[[[[dim sp] l] r] lmax] rmin] & E)]; auto.
    rewrite E. apply select_split_spec in E; auto; [|intros i Hi; split; now apply Bx].
    destruct E as (S1 & S2 & S3 & S4 & S5 & S6 & S7 & S8 & S9).
    assert (Il : forall i, In i l -> In i remains) by (intros i Hi; rewrite S2 in Hi; now apply filter_In in Hi).
    assert (Ir : forall i, In i r -> In i remains) by (intros i Hi; rewrite S3 in Hi; now apply filter_In in Hi).
    destruct (IH l dmin lmax) as [->|(tl & ->)]; auto. { intros i Hi. destruct (Bx i (Il i Hi)) as (A1 & A2 & A3). auto. }
    destruct (IH r rmin dmax) as [->|(tr & ->)]; auto. { intros i Hi. destruct (Bx i (Ir i Hi)) as (A1 & A2 & A3). auto. }
    destruct (BT remains dmin dmax) as (g & ->). { intros i Hi. now apply Bx. } cbn. eauto.
  Qed.

  (** Rows with equal contents are never separated. *)
  Lemma split_diverges leafsize Sx : NoDup Sx -> Sx <> [] -> leafsize <= length Sx ->
    (forall i j, In i Sx -> In j Sx -> nth i (mrows data) [] = nth j (mrows data) []) ->
    forall fuel remains dmin dmax, length dmin = mcols data -> length dmax = mcols data ->
    boxed remains dmin dmax -> incl Sx remains ->
    split B fuel leafsize data remains dmin dmax = None.
  Proof.
    intros ND NE LS EQ. induction fuel as [|fuel IH]; intros remains dmin dmax L1 L2 Bx I; cbn [split]; auto.
    assert (length Sx <= length remains) by (now apply NoDup_incl_length).
    rewrite (proj2 (Nat.ltb_ge _ _)) by lia.
    destruct (select_split_outcome fuel remains dmin dmax L1 L2) as [->|([[[[[dim sp] l] r] lmax] rmin] & E)]; auto.
    rewrite E. apply select_split_spec in E; auto; [|intros i Hi; split; now apply Bx].
    destruct E as (S1 & S2 & S3 & S4 & S5 & S6 & S7 & S8 & S9).
    assert (Il : forall i, In i l -> In i remains) by (intros i Hi; rewrite S2 in Hi; now apply filter_In in Hi).
    assert (Ir : forall i, In i r -> In i remains) by (intros i Hi; rewrite S3 in Hi; now apply filter_In in Hi).
    assert (Bl : boxed l dmin lmax) by (intros i Hi; destruct (Bx i (Il i Hi)) as (A1 & A2 & A3); auto).
    assert (Br : boxed r rmin dmax) by (intros i Hi; destruct (Bx i (Ir i Hi)) as (A1 & A2 & A3); auto).
    destruct Sx as [|s0 Sx']; [easy|]. set (Sx := s0 :: Sx') in *.
    destruct (nltb (nth dim (nth s0 (mrows data) []) nzero) sp) eqn:E0.
    - rewrite (IH l dmin lmax); auto. intros i Hi. rewrite S2. apply filter_In. split; auto.
      rewrite (EQ i s0); auto. now left.
    - destruct (split_outcome leafsize fuel l dmin lmax) as [->|(tl & ->)]; auto.
      rewrite (IH r rmin dmax); auto. intros i Hi. rewrite S3. apply filter_In. split; auto.
      rewrite (EQ i s0), E0; auto. now left.
  Qed.

  Theorem build_diverges leafsize Sx m : mwf data -> no_nan_data data -> equal_rows data Sx m -> 0 < m -> leafsize <= m ->
    forall fuel, tree_build B fuel leafsize data = None.
  Proof.
    intros W NN (ND & L & R & EQ) Hm LS fuel. subst m.
    assert (NE : 0 < nrows data). { destruct Sx as [|s Sx]; [cbn in Hm; lia|]. specialize (R s (or_introl eq_refl)). lia. }
    unfold tree_build. destruct (data_min_spec data W NN NE) as (dmin & -> & L1 & B1).
    destruct (data_max_spec data W NN NE) as (dmax & -> & L2 & B2).
    apply (split_diverges leafsize Sx); auto.
    - destruct Sx; [cbn in Hm; lia|discriminate].
    - intros i Hi. apply in_seq in Hi. split; [lia|]. split; [apply B1|apply B2]; lia.
    - intros i Hi. apply in_seq. specialize (R i Hi). lia.
  Qed.

  (** More fuel does not change the answer. *)
  Lemma select_mono fuel : forall fuel' remains dmin dmax x, fuel <= fuel' ->
    select_split fuel data remains dmin dmax = Some x -> select_split fuel' data remains dmin dmax = Some x.
  Proof.
    induction fuel as [|fuel IH]; intros [|fuel'] remains dmin dmax x H; try discriminate; try lia.
    cbn [select_split]. destruct argmax as [[dm d]| |]; auto.
    destruct (filter _ remains); [|destruct (filter _ remains)]; auto; apply IH; lia.
  Qed.
  Lemma split_mono leafsize fuel : forall fuel' remains dmin dmax x, fuel <= fuel' ->
    split B fuel leafsize data remains dmin dmax = Some x -> split B fuel' leafsize data remains dmin dmax = Some x.
  Proof.
    induction fuel as [|fuel IH]; intros [|fuel'] remains dmin dmax x H; try discriminate; try lia.
    cbn [split]. destruct (length remains <? leafsize); auto.
    destruct (select_split fuel data remains dmin dmax) as [y|] eqn:E; [|discriminate].
    rewrite (select_mono fuel fuel' _ _ _ y) by (auto; lia). destruct y as [[[[[[dim sp] l] r] lmax] rmin]| |]; auto.
    destruct (split B fuel leafsize data l dmin lmax) as [y|] eqn:E1; [|discriminate].
    rewrite (IH fuel' _ _ _ y) by (auto; lia). destruct y as [tl| |]; auto.
    destruct (split B fuel leafsize data r rmin dmax) as [y|] eqn:E2; [|discriminate].
    rewrite (IH fuel' _ _ _ y) by (auto; lia). auto.
  Qed.
  Lemma build_mono leafsize fuel fuel' x : fuel <= fuel' -> tree_build B fuel leafsize data = Some x ->
    tree_build B fuel' leafsize data = Some x.
  Proof.
    intros H. unfold tree_build. destruct data_min; auto. destruct data_max; auto. now apply split_mono.
  Qed.
End Gen.

Local Open Scope R_scope.
Section Real.
  Context {G : Type} (B : BinarySplit (F := R) G) (data : matrix R).
  Hypothesis BT : bs_total B data.
  Hypothesis C : (0 < mcols data)%nat.
  Hypothesis W : mwf data.
  Notation cell r j := (nth j (nth r (mrows data) []) 0).
  Notation boxed remains dmin dmax := (forall i, In i remains -> (i < nrows data)%nat /\ lower data dmin i /\ upper data dmax i).

  Lemma argbest_max (l : list R) : forall i bi bv pre, length pre = i -> (bi < i)%nat -> nth bi pre 0 = bv ->
    (forall x, In x pre -> x <= bv) ->
    let '(k, v) := argbest (fun v m => nltb m v) l i bi bv in
    nth k (pre ++ l) 0 = v /\ forall x, In x (pre ++ l) -> x <= v.
  Proof.
    induction l as [|x l IH]; intros i bi bv pre L Hb Nb M; cbn [argbest].
    - rewrite app_nil_r. auto.
    - destruct (nltb bv x) eqn:E.
      + apply nltb_R in E. specialize (IH (S i) i x (pre ++ [x])).
        replace (pre ++ x :: l) with ((pre ++ [x]) ++ l) by (now rewrite <- app_assoc). apply IH.
        * rewrite app_length; cbn; lia.
        * lia.
        * rewrite app_nth2, L, Nat.sub_diag by lia. reflexivity.
        * intros y Hy. apply in_app_or in Hy. destruct Hy as [Hy|[<-|[]]]; [|lra]. specialize (M y Hy). lra.
      + apply nltb_R_false in E. specialize (IH (S i) bi bv (pre ++ [x])).
        replace (pre ++ x :: l) with ((pre ++ [x]) ++ l) by (now rewrite <- app_assoc). apply IH.
        * rewrite app_length; cbn; lia.
        * lia.
        * rewrite app_nth1 by lia. auto.
        * intros y Hy. apply in_app_or in Hy. destruct Hy as [Hy|[<-|[]]]; auto.
  Qed.
  Lemma argmax_max (l : list R) k v : argmax l = Ok (k, v) -> (k < length l)%nat /\ nth k l 0 = v /\ forall x, In x l -> x <= v.
  Proof.
    intros H. split; [exact (argmax_range _ _ _ H)|]. unfold argmax in H. destruct l as [|x l]; [discriminate|].
    pose proof (argbest_max l 1 0 x [x] eq_refl ltac:(lia) eq_refl) as Q.
    assert (H1 : argbest (fun v m => nltb m v) l 1 0 x = (k, v)) by (injection H; auto). rewrite H1 in Q. apply Q. intros y [<-|[]]. lra.
  Qed.

  Lemma list_sum_vset (es : list nat) : forall i e', (i < length es)%nat -> nth i es 0%nat = S e' ->
    list_sum es = S (list_sum (vset es i e')).
  Proof.
    induction es as [|e es IH]; intros [|i] e' Hi H; cbn [vset list_sum fold_right nth length] in *; try lia.
    change (e + list_sum es = S (e + list_sum (vset es i e')))%nat. rewrite (IH i e'); auto; lia.
  Qed.

  (** Two different rows in the box: the loop halves the widest side until it separates something. *)
  Lemma select_terminates delta a b j : delta > 0 -> (j < mcols data)%nat -> delta <= cell a j - cell b j ->
    forall n es remains dmin dmax, list_sum es = n -> length es = mcols data ->
    length dmin = mcols data -> length dmax = mcols data -> boxed remains dmin dmax -> In a remains -> In b remains ->
    (forall c, (c < mcols data)%nat -> nth c dmax 0 - nth c dmin 0 < delta * 2 ^ (nth c es 0%nat)) ->
    exists x, select_split (S n) data remains dmin dmax = Some (Ok x).
  Proof.
    intros Dp Hj Hab. induction n as [|n IH]; intros es remains dmin dmax Sn Le L1 L2 Bx Ia Ib Wd; cbn [select_split].
    - exfalso. destruct (Bx a Ia) as (_ & _ & Ua). destruct (Bx b Ib) as (_ & Lb & _).
      specialize (Ua j Hj). specialize (Lb j Hj). apply nltb_R_false in Ua, Lb. specialize (Wd j Hj).
      assert (nth j es 0%nat = 0%nat).
      { assert (nth j es 0%nat <= list_sum es)%nat; [|lia]. assert (Hl : (j < length es)%nat) by lia. clear -Hl. revert j Hl. induction es as [|e es IHes]; intros [|j] H; cbn [nth length] in *; try lia; change (list_sum (e :: es)) with (e + list_sum es)%nat; [lia|]. specialize (IHes j ltac:(lia)). lia. }
      rewrite H in Wd. cbn [nzero NumR] in *. cbn in Wd. lra.
    - destruct (argmax_ok (vsub dmax dmin)) as ([dm d] & EA).
      { intros Q. apply (f_equal (@length _)) in Q. unfold vsub in Q. rewrite map2_length, L1, L2 in Q. cbn in Q. lia. }
      rewrite EA. apply argmax_max in EA. destruct EA as (E1 & E2 & E3).
      unfold vsub in E1, E2, E3. rewrite map2_length, L1, L2, Nat.min_id in E1. rewrite nth_map2_0 in E2 by lia.
      cbn [nsub NumR] in E2.
      assert (Hd : delta <= d).
      { destruct (Bx a Ia) as (_ & _ & Ua). destruct (Bx b Ib) as (_ & Lb & _).
        specialize (Ua j Hj). specialize (Lb j Hj). apply nltb_R_false in Ua, Lb. cbn [nzero NumR] in *.
        specialize (E3 (nth j dmax 0 - nth j dmin 0)).
        enough (nth j dmax 0 - nth j dmin 0 <= d) by lra. apply E3.
        change (nth j dmax 0 - nth j dmin 0) with (nsub (nth j dmax 0) (nth j dmin 0)). rewrite <- (nth_map2_0 nsub dmax dmin j) by lia. apply nth_In. rewrite map2_length. lia. }
      assert (exists e', nth dm es 0%nat = S e') as (e' & He).
      { specialize (Wd dm E1). rewrite E2 in Wd. destruct (nth dm es 0%nat) as [|e']; [cbn in Wd; lra|eauto]. }
      assert (HS : list_sum (vset es dm e') = n). { pose proof (list_sum_vset es dm e' ltac:(lia) He). lia. }
      cbv zeta. cbn [nadd ndiv nonev NumR].
      set (s := nth dm dmin (@nzero R NumR) + d / (1 + 1)).
      assert (Hs : s = nth dm dmin 0 + d / 2) by (unfold s; cbn [nzero NumR]; lra).
      set (f := fun r0 => nltb (cell r0 dm) s).
      change (fun r0 : nat => nltb (nth dm (nth r0 (mrows data) []) nzero) s) with f.
      change (fun r0 : nat => negb (nltb (nth dm (nth r0 (mrows data) []) nzero) s)) with (fun r0 => negb (f r0)).
      destruct (filter f remains) as [|l0 ls] eqn:El.
      + pose proof (filter_nil_other f remains El) as RR.
        destruct (IH (vset es dm e') (filter (fun r0 => negb (f r0)) remains) (vset dmin dm s) dmax) as (x & Hx); rewrite ?vset_length, ?RR; auto.
        * intros i Hi. destruct (Bx i Hi) as (B1 & B2 & B3). split; auto. split; auto. intros c Hc. rewrite nth_vset by lia.
          destruct (Nat.eqb_spec dm c) as [<-|]; [|now apply B2]. rewrite <- RR in Hi. apply filter_In in Hi. destruct Hi as [_ Hi]. now apply negb_true_iff in Hi.
        * intros c Hc. specialize (Wd c Hc). rewrite !nth_vset by lia. destruct (Nat.eqb_spec dm c) as [<-|]; auto.
          rewrite He in Wd. cbn [pow] in Wd. lra.
        * exists x. rewrite <- Hx, RR. reflexivity.
      + destruct (filter (fun r0 : nat => negb (f r0)) remains) as [|r0 rs] eqn:Er; [|eauto].
        pose proof (filter_nil_other' f remains Er) as RR.
        destruct (IH (vset es dm e') (l0 :: ls) dmin (vset dmax dm s)) as (x & Hx); rewrite ?vset_length, <- ?El, ?RR; auto.
        * intros i Hi. destruct (Bx i Hi) as (B1 & B2 & B3). split; auto. split; auto. intros c Hc. rewrite nth_vset by lia.
          destruct (Nat.eqb_spec dm c) as [<-|]; [|now apply B3]. rewrite <- RR in Hi. apply filter_In in Hi. destruct Hi as [_ Hi]. now apply no_asym.
        * intros c Hc. specialize (Wd c Hc). rewrite !nth_vset by lia. destruct (Nat.eqb_spec dm c) as [<-|]; auto.
          rewrite He in Wd. cbn [pow] in Wd. lra.
        * exists x. rewrite <- El, RR in Hx. rewrite <- Hx. reflexivity.
  Qed.

  Lemma pow2_exceeds (r delta : R) : delta > 0 -> exists e, r < delta * 2 ^ e.
  Proof.
    intros D. assert (exists n, r / delta < INR n) as (n & Hn).
    { exists (Z.to_nat (up (Rmax 0 (r / delta)))). destruct (archimed (Rmax 0 (r / delta))) as [A _].
      pose proof (Rmax_l 0 (r / delta)). pose proof (Rmax_r 0 (r / delta)).
      assert (0 <= up (Rmax 0 (r / delta)))%Z by (apply le_IZR; lra). rewrite INR_IZR_INZ, Z2Nat.id by auto. lra. }
    exists n.
    assert (P : INR n <= 2 ^ n).
    { clear. induction n as [|n IH]; [cbn; lra|]. rewrite S_INR. cbn [pow]. assert (1 <= 2 ^ n) by (apply pow_R1_Rle; lra). lra. }
    assert (r / delta < 2 ^ n) by lra. apply (Rmult_lt_compat_l delta) in H; auto. replace (delta * (r / delta)) with r in H by (field; lra). exact H.
  Qed.
  Lemma pow2_exceeds_list (dmin dmax : list R) delta n : delta > 0 -> exists es, length es = n /\
    forall c, (c < n)%nat -> nth c dmax 0 - nth c dmin 0 < delta * 2 ^ (nth c es 0%nat).
  Proof.
    intros D. induction n as [|n (es & L & H)].
    - exists []. split; auto. lia.
    - destruct (pow2_exceeds (nth n dmax 0 - nth n dmin 0) delta D) as (e & He). exists (es ++ [e]).
      rewrite app_length. cbn. split; [lia|]. intros c Hc. destruct (Nat.eq_dec c n) as [->|].
      + rewrite app_nth2, L, Nat.sub_diag by lia. exact He.
      + rewrite app_nth1 by lia. apply H. lia.
  Qed.

  Lemma rows_differ (u v : list R) : length u = length v -> u <> v -> exists j, (j < length u)%nat /\ nth j u 0 <> nth j v 0.
  Proof.
    revert v; induction u as [|x u IH]; intros [|y v] L H; try discriminate; [easy|].
    destruct (Req_EM_T x y) as [->|Hxy].
    - destruct (IH v) as (j & Hj & Hn); [cbn in L; lia|congruence|]. exists (S j). cbn. split; [lia|auto].
    - exists 0%nat. cbn. split; [lia|auto].
  Qed.

  Lemma select_terminates' remains dmin dmax : NoDup remains -> length dmin = mcols data -> length dmax = mcols data -> boxed remains dmin dmax ->
    ~ (forall i j, In i remains -> In j remains -> nth i (mrows data) [] = nth j (mrows data) []) ->
    exists fuel x, select_split fuel data remains dmin dmax = Some (Ok x).
  Proof.
    intros ND L1 L2 Bx H.
    assert (exists a b, In a remains /\ In b remains /\ nth a (mrows data) [] <> nth b (mrows data) []) as (a & b & Ia & Ib & Hab).
    { destruct remains as [|a rem]; [exfalso; apply H; intros ? ? []|].
      destruct (Forall_Exists_dec (fun i => nth i (mrows data) [] = nth a (mrows data) []) (fun i => list_eq_dec Req_EM_T _ _) rem) as [Q|Q].
      - exfalso. apply H. rewrite Forall_forall in Q. intros i j [<-|Hi] [<-|Hj]; auto.
        + symmetry. now apply Q.
        + rewrite Q, (Q j); auto.
      - apply Exists_exists in Q. destruct Q as (b & Ib & Hb). exists b, a. split; [now right|]. split; [now left|auto]. }
    destruct (rows_differ _ _ (eq_trans (row_length data W a (proj1 (Bx a Ia))) (eq_sym (row_length data W b (proj1 (Bx b Ib))))) Hab) as (j & Hj & Hn).
    rewrite (row_length data W a (proj1 (Bx a Ia))) in Hj.
    assert (K : forall a b, In a remains -> In b remains -> cell b j < cell a j -> exists fuel x, select_split fuel data remains dmin dmax = Some (Ok x)).
    { clear a b Ia Ib Hab Hn. intros a b Ia Ib Hlt. set (delta := cell a j - cell b j).
      destruct (pow2_exceeds_list dmin dmax delta (mcols data)) as (es & Le & We); [unfold delta; lra|].
      exists (S (list_sum es)). apply (select_terminates delta a b j) with (es := es); auto; unfold delta; lra. }
    destruct (Rtotal_order (cell a j) (cell b j)) as [Q|[Q|Q]]; [|contradiction|]; eauto.
  Qed.

  Lemma split_terminates leafsize : forall n remains dmin dmax, (length remains <= n)%nat -> NoDup remains -> remains <> [] ->
    length dmin = mcols data -> length dmax = mcols data -> boxed remains dmin dmax ->
    (forall Sx, NoDup Sx -> incl Sx remains -> (forall i j, In i Sx -> In j Sx -> nth i (mrows data) [] = nth j (mrows data) []) -> (length Sx < leafsize)%nat) ->
    exists fuel t, split B fuel leafsize data remains dmin dmax = Some (Ok t).
  Proof.
    induction n as [|n IH]; intros remains dmin dmax Ln ND NE L1 L2 Bx Mu; [destruct remains; [easy|cbn in Ln; lia]|].
    destruct (Nat.ltb_spec (length remains) leafsize) as [LS|LS].
    - exists 1%nat, (Leaf remains). cbn [split]. now rewrite (proj2 (Nat.ltb_lt _ _) LS).
    - destruct (select_terminates' remains dmin dmax ND L1 L2 Bx) as (f0 & [[[[[dim sp] l] r] lmax] rmin] & E).
      { intros Q. specialize (Mu remains ND (incl_refl _) Q). lia. }
      assert (E' := E). apply select_split_spec in E'; auto; [|intros i Hi; split; now apply Bx].
      destruct E' as (S1 & S2 & S3 & S4 & S5 & S6 & S7 & S8 & S9).
      assert (P : Permutation (l ++ r) remains) by (rewrite S2, S3; apply filter_partition_perm).
      assert (Pl := Permutation_length P). rewrite app_length in Pl.
      assert (0 < length l)%nat by (destruct l; [easy|cbn; lia]). assert (0 < length r)%nat by (destruct r; [easy|cbn; lia]).
      assert (Il : forall i, In i l -> In i remains) by (intros i Hi; rewrite S2 in Hi; now apply filter_In in Hi).
      assert (Ir : forall i, In i r -> In i remains) by (intros i Hi; rewrite S3 in Hi; now apply filter_In in Hi).
      assert (Bl : boxed l dmin lmax) by (intros i Hi; destruct (Bx i (Il i Hi)) as (A1 & A2 & A3); auto).
      assert (Br : boxed r rmin dmax) by (intros i Hi; destruct (Bx i (Ir i Hi)) as (A1 & A2 & A3); auto).
      destruct (IH l dmin lmax) as (fl & tl & El); auto; try lia.
      { rewrite S2. now apply NoDup_filter. } { intros Sx N1 N2 N3. apply Mu; auto. intros i Hi. apply Il. now apply N2. }
      destruct (IH r rmin dmax) as (fr & tr & Er); auto; try lia.
      { rewrite S3. now apply NoDup_filter. } { intros Sx N1 N2 N3. apply Mu; auto. intros i Hi. apply Ir. now apply N2. }
      set (f := Nat.max f0 (Nat.max fl fr)).
      destruct (BT remains dmin dmax) as (g & Eg). { intros i Hi. now apply Bx. }
      exists (S f), (Branch dim sp g tl tr). cbn [split]. rewrite (proj2 (Nat.ltb_ge _ _) LS).
      assert (F0 : (f0 <= f)%nat) by (unfold f; lia). assert (F1 : (fl <= f)%nat) by (unfold f; lia). assert (F2 : (fr <= f)%nat) by (unfold f; lia).
      eapply select_mono in E; [|exact C|exact F0]. eapply split_mono in El; [|exact C|exact F1]. eapply split_mono in Er; [|exact C|exact F2].
      now rewrite E, El, Er, Eg.
  Qed.

  Theorem build_finishes_iff leafsize : (0 < nrows data)%nat ->
    (exists fuel t, tree_build B fuel leafsize data = Some (Ok t)) <->
    (forall Sx m, equal_rows data Sx m -> (0 < m)%nat -> (m < leafsize)%nat).
  Proof.
    intros NE. assert (NN : no_nan_data data) by (intros i j _ _; reflexivity). split.
    - intros (fuel & t & E) Sx m Q Hm. destruct (Nat.lt_ge_cases m leafsize) as [|LS]; auto.
      rewrite (build_diverges B data BT C leafsize Sx m W NN Q Hm LS) in E. discriminate.
    - intros Mu. unfold tree_build. destruct (data_min_spec data W NN NE) as (dmin & -> & L1 & B1).
      destruct (data_max_spec data W NN NE) as (dmax & -> & L2 & B2).
      apply (split_terminates leafsize (nrows data)); auto.
      + rewrite seq_length. lia.
      + apply seq_NoDup.
      + destruct (nrows data); [lia|discriminate].
      + intros i Hi. apply in_seq in Hi. split; [lia|]. split; [apply B1|apply B2]; lia.
      + intros Sx N1 N2 N3. destruct Sx as [|s Sx].
        * enough (1 < leafsize)%nat by (cbn; lia). apply (Mu [0%nat] 1%nat); [|lia]. repeat split; auto.
          -- constructor; [easy|constructor].
          -- intros i [<-|[]]. auto.
          -- intros i j [<-|[]] [<-|[]]. auto.
        * apply (Mu (s :: Sx) (length (s :: Sx))); [|cbn; lia]. repeat split; auto.
          intros i Hi. apply N2, in_seq in Hi. lia.
  Qed.
End Real.
