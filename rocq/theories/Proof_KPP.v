(** * Proofs: the law of k-means++ and the potential it leaves *)
From Coq Require Import List Arith Lia Bool Reals Lra FunctionalExtensionality.
From Coquelicot Require Import Hierarchy RInt.
From Verif Require Import Base BaseLemmas Num NumOrd Linalg LinalgR MatR Euclid Model_KMeans Spec_Calc Spec_KNN Spec_KMeans Spec_KPP.
From Verif Require Import Proof_KMeans Proof_KMeans2 Proof_KMeans3 Proof_KMInv Proof_KPPMath.
Import ListNotations.
Local Open Scope R_scope.

Lemma mean_of_inv t f v : mean_of t f v -> match t with O => v = f [] | S t' => exists g, (forall u, 0 < u < 1 -> mean_of t' (fun us => f (u :: us)) (g u)) /\ is_RInt g 0 1 v end.
Proof. destruct 1; eauto. Qed.
Lemma mean_of_unique t : forall f v v', mean_of t f v -> mean_of t f v' -> v = v'.
Proof.
  induction t as [|t IH]; intros f v v' H H'; apply mean_of_inv in H; apply mean_of_inv in H'; [congruence|].
  destruct H as (g & A & B). destruct H' as (g' & A' & B').
  assert (E : is_RInt g 0 1 v') by (apply (is_RInt_ext g'); [rewrite Rmin_left, Rmax_right by lra; intros x Hx; eapply IH; eauto|exact B']).
  rewrite <- (is_RInt_unique (V := R_CompleteNormedModule) _ _ _ _ B). now apply (is_RInt_unique (V := R_CompleteNormedModule)).
Qed.

(** ** Nearest centres *)
Lemma sqd_ge0 d x c : 0 <= sqd d x c.
Proof. apply sumR_ge0. intros. apply pow2_ge_0. Qed.
Lemma sqd_sym d x c : sqd d x c = sqd d c x.
Proof. apply sumR_ext. intros. ring. Qed.
Lemma sqd_tri d x y z : sqd d x y <= 2 * sqd d x z + 2 * sqd d z y.
Proof.
  unfold sqd. rewrite <- !sumR_scal, <- sumR_plus. apply sumR_le. intros j _.
  set (a := nth j x 0). set (b := nth j y 0). set (c := nth j z 0). pose proof (pow2_ge_0 (a - c - (c - b))). nra.
Qed.
Lemma nearest_le d x cs c : In c cs -> nearest_sq d x cs <= sqd d x c.
Proof.
  induction cs as [|c0 cs IH]; [easy|]. intros H. cbn [nearest_sq]. destruct cs as [|c1 cs].
  - destruct H as [->|[]]. lra.
  - destruct H as [->|H]; [apply Rmin_l|]. eapply Rle_trans; [apply Rmin_r|]. now apply IH.
Qed.
Lemma nearest_in d x cs : cs <> [] -> exists c, In c cs /\ nearest_sq d x cs = sqd d x c.
Proof.
  induction cs as [|c0 cs IH]; [easy|]. intros _. cbn [nearest_sq]. destruct cs as [|c1 cs].
  - exists c0. split; auto. now left.
  - destruct IH as (c & Hc & E); [easy|]. unfold Rmin. destruct Rle_dec; [exists c0; split; auto; now left|exists c; split; auto; now right].
Qed.
Lemma nearest_unique d x cs c : In c cs -> (forall c', In c' cs -> sqd d x c <= sqd d x c') -> sqd d x c = nearest_sq d x cs.
Proof.
  intros H L. apply Rle_antisym; [|now apply nearest_le]. destruct (nearest_in d x cs) as (c' & Hc' & ->); [now intros ->|]. auto.
Qed.
Lemma nearest_snoc d x cs c : cs <> [] -> nearest_sq d x (cs ++ [c]) = Rmin (nearest_sq d x cs) (sqd d x c).
Proof.
  induction cs as [|c0 cs IH]; [easy|]. intros _. destruct cs as [|c1 cs]; [reflexivity|].
  change (Rmin (sqd d x c0) (nearest_sq d x ((c1 :: cs) ++ [c])) = Rmin (Rmin (sqd d x c0) (nearest_sq d x (c1 :: cs))) (sqd d x c)).
  rewrite IH by easy. unfold Rmin. repeat destruct Rle_dec; lra.
Qed.
Lemma nearest_ge0 d x cs : 0 <= nearest_sq d x cs.
Proof. destruct cs as [|c cs]; [cbn; lra|]. destruct (nearest_in d x (c :: cs)) as (c' & _ & ->); [easy|]. apply sqd_ge0. Qed.

(** ** Sampling *)
Lemma sumR_first n f : sumR (S n) f = f 0%nat + sumR n (fun i => f (S i)).
Proof. induction n as [|n IH]; [cbn; ring|]. change (sumR (S n) f + f (S n) = f 0%nat + (sumR n (fun i => f (S i)) + f (S n))). rewrite IH. ring. Qed.
Lemma sample_loop_int S (h : nat -> R) l : 0 < S -> forall i t, (forall p, In p l -> 0 <= p) ->
  is_RInt (fun u => match sample_loop (u * S) i t l with Ok j => h j | _ => 0 end) (t / S) ((t + rsum l) / S)
    (sumR (length l) (fun j => nth j l 0 / S * h (i + j)%nat)).
Proof.
  intros PS. induction l as [|p l IH]; intros i t Hp.
  - cbn [rsum fold_right length sumR]. rewrite Rplus_0_r. apply (is_RInt_point (V := R_NormedModule)).
  - assert (P0 : 0 <= p) by (apply Hp; now left). assert (Hl : forall x, In x l -> 0 <= x) by (intros; apply Hp; now right).
    assert (Ps : 0 <= rsum l) by (apply rsum_ge0, Forall_forall; auto). assert (IS : 0 < / S) by now apply Rinv_0_lt_compat.
    change (rsum (p :: l)) with (p + rsum l). rewrite <- Rplus_assoc. cbn [length]. rewrite sumR_first. cbn [nth]. rewrite Nat.add_0_r.
    apply (is_RInt_Chasles (V := R_NormedModule) _ (t / S) ((t + p) / S)).
    + apply (is_RInt_ext (fun _ => h i)).
      * rewrite Rmin_left, Rmax_right by (unfold Rdiv; nra). intros u Hu. cbn [sample_loop nadd NumR].
        assert (E : nltb (u * S) (t + p) = true). { apply nltb_R'. apply (Rmult_lt_reg_r (/ S)); auto. rewrite Rmult_assoc, Rinv_r, Rmult_1_r by lra. apply Hu. }
        now rewrite E.
      * replace (p / S * h i) with (scal ((t + p) / S - t / S) (h i) : R) by (unfold scal; cbn; unfold mult; cbn; field; lra).
        apply (is_RInt_const (V := R_NormedModule)).
    + rewrite (sumR_ext _ _ (fun j => nth j l 0 / S * h (Datatypes.S i + j)%nat)) by (intros; do 2 f_equal; lia).
      apply (is_RInt_ext (fun u => match sample_loop (u * S) (Datatypes.S i) (t + p) l with Ok j => h j | _ => 0 end)); [|now apply IH].
      rewrite Rmin_left, Rmax_right by (unfold Rdiv; nra). intros u Hu. cbn [sample_loop nadd NumR].
      assert (E : nltb (u * S) (t + p) = false). { apply nltb_R_false. apply (Rmult_le_reg_r (/ S)); auto. rewrite Rmult_assoc, Rinv_r, Rmult_1_r by lra. apply Rlt_le, Hu. }
      now rewrite E.
Qed.
Lemma sample_int (h : nat -> R) l : 0 < rsum l -> (forall p, In p l -> 0 <= p) ->
  is_RInt (fun u => match sample_discretely l u with Ok j => h j | _ => 0 end) 0 1 (sumR (length l) (fun j => nth j l 0 / rsum l * h j)).
Proof.
  intros P H. pose proof (sample_loop_int (rsum l) h l P 0 0 H) as Q. cbn [Nat.add] in Q. unfold Rdiv at 1 2 in Q. rewrite Rmult_0_l, Rplus_0_l, Rinv_r in Q by lra.
  eapply is_RInt_ext; [|exact Q]. intros u _. cbv beta. unfold sample_discretely. rewrite vsum_R.
  assert (E : (0 <? length l)%nat = true) by (apply Nat.ltb_lt; destruct l; [cbn in P; lra|cbn; lia]). rewrite E. cbn [rassert].
  assert (E2 : nltb nzero (rsum l) = true) by (now apply nltb_R'). rewrite E2. reflexivity.
Qed.

Section Seed.
  Context (M : matrix R) (WM : mwf M).
  Let row i := nth i (mrows M) [].
  Let n := nrows M.
  Let d := mcols M.
  Let dist (ch : list nat) : nat -> R := fun j => nearest_sq d (row j) (map row ch).

  Lemma row_len i : (i < n)%nat -> length (row i) = d.
  Proof. intros H. apply mwf_row; auto. Qed.
  Lemma dist_is ch : ch <> [] -> Forall (fun i => (i < n)%nat) ch ->
    exists idx ds, find_closest_centroids (Mat (map row ch) (mcols M)) M = Ok (idx, ds) /\ length ds = n /\ forall i, (i < n)%nat -> nth i ds 0 = dist ch i.
  Proof.
    intros NE LT. set (C := Mat (map row ch) (mcols M)).
    assert (KC : nrows C = length ch) by (unfold nrows, C; cbn; now rewrite map_length).
    destruct (find_closest_spec C M) as (idx & E & H); auto.
    { rewrite KC. destruct ch; [easy|cbn; lia]. }
    destruct (Forall2_nth_iff _ _ _ 0%nat [] H) as [L Hn].
    eexists idx, _. split; [exact E|]. split; [rewrite map2_length, L, Nat.min_id; reflexivity|].
    intros i Hi. rewrite (map2_nth _ _ _ _ 0%nat []); [|rewrite L; exact Hi|exact Hi].
    specialize (Hn i ltac:(rewrite L; exact Hi)). cbv beta in Hn. apply is_closest_R_iff in Hn. destruct Hn as (A & B & _).
    assert (Lc : forall c, (c < nrows C)%nat -> exists p, In p ch /\ nth c (mrows C) [] = row p).
    { intros c Hc. change (mrows C) with (map row ch). exists (nth c ch 0%nat). rewrite KC in Hc. split; [now apply nth_In|].
      rewrite (nth_indep _ [] (row 0%nat)) by (now rewrite map_length). apply map_nth. }
    rewrite Forall_forall in LT.
    assert (Sq : forall c, (c < nrows C)%nat -> sqdist (nth c (mrows C) []) (nth i (mrows M) []) = sqd d (row i) (nth c (mrows C) [])).
    { intros c Hc. destruct (Lc c Hc) as (p & Hp & ->). rewrite (sqdist_sum d) by (apply row_len; auto; now apply LT). rewrite sqd_sym. reflexivity. }
    rewrite Sq by auto. unfold dist. change (map row ch) with (mrows C). apply nearest_unique; [now apply nth_In|].
    intros c' Hc'. destruct (In_nth _ _ [] Hc') as (c & Hc & <-). specialize (B c Hc). cbv beta in B. rewrite !Sq in B by auto. exact B.
  Qed.
  Lemma dist_pos ch i : ch <> [] -> Forall (fun i => (i < n)%nat) ch -> (i < n)%nat -> (0 < dist ch i <-> ~ In (row i) (map row ch)).
  Proof.
    intros NE LT Hi. destruct (dist_spec M WM ch NE LT) as (idx & ds & E & L & P). destruct (dist_is ch NE LT) as (idx' & ds' & E' & L' & P').
    change (find_closest_centroids (Mat (map row ch) (mcols M)) M = Ok (idx, ds)) in E. rewrite E in E'. injection E' as <- <-. rewrite <- (P' i Hi). apply (P i Hi).
  Qed.
  Lemma dist_total ch : ch <> [] -> Forall (fun i => (i < n)%nat) ch -> NoDup (map row ch) -> has_distinct M (S (length ch)) -> 0 < sumR n (dist ch).
  Proof.
    intros NE LT ND (Dl & LD & LTD & DD).
    assert (G : forall i, (i < n)%nat -> 0 <= dist ch i) by (intros; apply nearest_ge0).
    destruct (Rle_lt_or_eq_dec 0 _ (sumR_ge0 n _ G)) as [P|Z]; auto. exfalso. symmetry in Z.
    assert (INC : incl (map row Dl) (map row ch)).
    { intros r Hr. apply in_map_iff in Hr. destruct Hr as (i & <- & Hi). rewrite Forall_forall in LTD. specialize (LTD i Hi).
      destruct (in_dec (list_eq_dec Req_EM_T) (row i) (map row ch)) as [|NI]; auto. exfalso.
      apply (dist_pos ch i NE LT LTD) in NI. rewrite (sumR_zero_inv n _ G Z i LTD) in NI. lra. }
    apply NoDup_incl_length in INC; [|exact DD]. rewrite !map_length in INC. lia.
  Qed.

  (** One step of the loop. *)
  Lemma step ch u : ch <> [] -> Forall (fun i => (i < n)%nat) ch -> NoDup (map row ch) -> 0 < sumR n (dist ch) -> 0 <= u < 1 ->
    exists ds i, sample_discretely ds u = Ok i /\ length ds = n /\ (forall j, (j < n)%nat -> nth j ds 0 = dist ch j) /\ (i < n)%nat /\ 0 < dist ch i /\
    forall us, kpp_loop M (u :: us) ch (map row ch) = kpp_loop M us (ch ++ [i]) (map row (ch ++ [i])).
  Proof.
    intros NE LT ND PS Hu. destruct (dist_is ch NE LT) as (idx & ds & E & L & P).
    assert (EL : rsum ds = sumR n (dist ch)) by (rewrite rsum_nth, L; apply sumR_ext; auto).
    assert (NN : forall p, In p ds -> (0 <= p)%R). { intros p Hp. destruct (In_nth _ _ 0%R Hp) as (i & Hi & <-). rewrite P by lia. apply nearest_ge0. }
    assert (NX : (0 < n)%nat). { destruct ch as [|c0 ch0]; [easy|]. inversion LT; subst. lia. }
    assert (FA : forallb nfinite ds = true) by (apply forallb_forall; auto).
    rewrite <- EL in PS.
    assert (R0 : (0 <= u * rsum ds < rsum ds)%R). { split; [apply Rmult_le_pos; lra|]. rewrite <- (Rmult_1_l (rsum ds)) at 2. apply Rmult_lt_compat_r; lra. }
    destruct (sample_loop_pos (u * rsum ds) ds 0 0%R) as [SA SB]; [lra|auto|]. destruct (SB ltac:(lra)) as (nx & Ex).
    destruct (SA nx Ex) as [Hx1 Hx2]. rewrite Nat.sub_0_r in Hx2. assert (Hx : (nx < n)%nat) by lia. rewrite P in Hx2 by auto.
    assert (ED : sample_discretely ds u = Ok nx).
    { unfold sample_discretely. assert (E0 : (0 <? length ds)%nat = true) by (apply Nat.ltb_lt; lia). rewrite E0. cbn [rassert]. rewrite vsum_R.
      assert (E1 : nltb nzero (rsum ds) = true) by (now apply nltb_R'). rewrite E1. exact Ex. }
    exists ds, nx. repeat (split; [assumption|]). intros us. cbn [kpp_loop]. rewrite E. cbn [rbind]. rewrite FA. cbn [negb]. rewrite ED. cbn [rbind].
    unfold ridx. rewrite (nth_error_nth' _ []) by (exact Hx). cbn [rbind]. now rewrite map_app.
  Qed.

  Definition outcome_of (p : res (list nat * list (list R))) : R := match p with Ok (_, cens) => potential M (Mat cens (mcols M)) | _ => 0 end.
  Let q i j := sqd d (row i) (row j).

  Lemma after_ext t : forall D D', (forall i, (i < n)%nat -> D i = D' i) -> after n q t D = after n q t D'.
  Proof.
    induction t as [|t IH]; intros D D' E; cbn [after]; [now apply sumR_ext|]. rewrite (sumR_ext n D D' E). apply sumR_ext. intros i Hi. rewrite (E i Hi). f_equal.
    apply IH. intros j Hj. unfold closer. now rewrite E.
  Qed.
  Lemma loop_mean t : forall ch, ch <> [] -> Forall (fun i => (i < n)%nat) ch -> NoDup (map row ch) -> has_distinct M (length ch + t) ->
    mean_of t (fun us => outcome_of (kpp_loop M us ch (map row ch))) (after n q t (dist ch)).
  Proof.
    induction t as [|t IH]; intros ch NE LT ND HD.
    - change (after n q 0 (dist ch)) with ((fun us => outcome_of (kpp_loop M us ch (map row ch))) []). constructor.
    - assert (PS : 0 < sumR n (dist ch)).
      { apply dist_total; auto. destruct HD as (Dl & LD & LTD & DD). exists (firstn (S (length ch)) Dl). split; [rewrite firstn_length; lia|].
        rewrite <- (firstn_skipn (S (length ch)) Dl) in LTD, DD. apply Forall_app in LTD. split; [apply LTD|]. unfold different_rows in *. rewrite map_app in DD.
        now apply NoDup_app_l in DD. }
      destruct (dist_is ch NE LT) as (idx & ds & E & L & P).
      apply (mean_one t _ (fun u => match sample_discretely ds u with Ok i => after n q t (closer q (dist ch) i) | _ => 0 end)).
      + intros u Hu. destruct (step ch u NE LT ND PS ltac:(lra)) as (ds' & i & ES & L' & P' & Hi & Di & Ek).
        assert (ds' = ds) as ->. { apply (nth_ext _ _ 0 0); [congruence|]. intros j Hj. rewrite L' in Hj. now rewrite P, P'. }
        rewrite ES. replace (fun us => outcome_of (kpp_loop M (u :: us) ch (map row ch))) with (fun us => outcome_of (kpp_loop M us (ch ++ [i]) (map row (ch ++ [i])))).
        2: { apply functional_extensionality. intros us. now rewrite Ek. }
        rewrite (after_ext t (closer q (dist ch) i) (dist (ch ++ [i]))).
        * apply IH.
          -- now destruct ch.
          -- apply Forall_app. auto.
          -- rewrite map_app. apply NoDup_snoc; auto. now apply (dist_pos ch i NE LT Hi).
          -- rewrite app_length. cbn [length]. now replace (length ch + 1 + t)%nat with (length ch + S t)%nat by lia.
        * intros j Hj. unfold closer, dist, q. rewrite map_app. cbn [map]. rewrite nearest_snoc by (now destruct ch). f_equal. apply sqd_sym.
      + assert (EL : rsum ds = sumR n (dist ch)) by (rewrite rsum_nth, L; apply sumR_ext; auto).
        pose proof (sample_int (fun i => after n q t (closer q (dist ch) i)) ds ltac:(lra)) as Q. rewrite L in Q. cbn [after].
        rewrite (sumR_ext n _ (fun j => nth j ds 0 / rsum ds * after n q t (closer q (dist ch) j))).
        * apply Q. intros p Hp. destruct (In_nth _ _ 0%R Hp) as (i & Hi & <-). rewrite P by lia. apply nearest_ge0.
        * intros j Hj. now rewrite P, EL.
  Qed.

  Lemma kpp_seeded k first us : (first < n)%nat -> length us = (k - 1)%nat -> (0 < k)%nat -> Forall (fun u => 0 <= u < 1)%R us -> has_distinct M k ->
    seeded M k first us = outcome_of (kpp_loop M us [first] (map row [first])).
  Proof.
    intros Hf Lu K Hu HD. destruct (kpp_spec M WM k first us Hf Lu K Hu) as (_ & HO & _). destruct (HO HD) as ((c0, C0) & Ep). unfold seeded. rewrite Ep.
    unfold kpp, ridx in Ep. rewrite (nth_error_nth' _ []) in Ep by (exact Hf). cbn [rbind] in Ep. cbn [map]. unfold row.
    destruct kpp_loop as [(c, cens)|e|]; try discriminate. cbn [rbind] in Ep. unfold rassert in Ep. destruct (_ =? _)%nat; [|discriminate]. injection Ep as <- <-. reflexivity.
  Qed.
  Lemma mean_of_ext t : forall f f' v, (forall us, length us = t -> Forall (fun u => 0 <= u < 1)%R us -> f us = f' us) -> mean_of t f v -> mean_of t f' v.
  Proof.
    induction t as [|t IH]; intros f f' v E H; apply mean_of_inv in H.
    - rewrite H, E by auto. constructor.
    - destruct H as (g & A & B). eapply mean_one; eauto. intros u Hu. eapply IH; [|eauto]. intros us Lus Hus. cbv beta. apply E; [cbn; lia|]. constructor; auto. lra.
  Qed.

  Section Other.
    Context (C : matrix R) (k : nat) (K : nrows C = k) (Pk : (0 < k)%nat).
    Let a i := match find (fun c => if Req_EM_T (sqd d (row i) (nth c (mrows C) [])) (nearest_sq d (row i) (mrows C)) then true else false) (seq 0 k) with Some c => c | None => 0%nat end.
    Lemma a_spec i : (a i < k)%nat /\ sqd d (row i) (nth (a i) (mrows C) []) = nearest_sq d (row i) (mrows C).
    Proof.
      unfold a. destruct find as [c|] eqn:E.
      - apply find_some in E. destruct E as (H & E). apply in_seq in H. destruct Req_EM_T as [Q|]; [|discriminate]. split; [lia|exact Q].
      - exfalso. destruct (nearest_in d (row i) (mrows C)) as (c & Hc & Ec). { intros Z. unfold nrows in K. rewrite Z in K. cbn in K. lia. }
        destruct (In_nth _ _ [] Hc) as (j & Hj & Ej). pose proof (find_none _ _ E j) as Q. cbv beta in Q.
        assert (In j (seq 0 k)) by (apply in_seq; unfold nrows in K; lia). specialize (Q H). destruct Req_EM_T as [|Q']; [discriminate|]. apply Q'. now rewrite Ej.
    Qed.
    Lemma spread1 l (f : nat -> R) c : part n a l (fun i => part n a l (fun j => (f i - f j) ^ 2)) <= 2 * part n a l (fun _ => 1) * part n a l (fun i => (f i - c) ^ 2).
    Proof.
      set (g := fun i => f i - c). set (m := part n a l (fun _ => 1)). set (s := part n a l g). set (s2 := part n a l (fun i => (g i) ^ 2)).
      assert (E : forall i, part n a l (fun j => (f i - f j) ^ 2) = m * (g i) ^ 2 + (-2 * s) * g i + s2).
      { intros i. transitivity (part n a l (fun j => (g i) ^ 2 + (-2 * g i) * g j + (g j) ^ 2)).
        - apply sumR_ext. intros j _. destruct (a j =? l)%nat; auto. unfold g. ring.
        - rewrite !part_plus, part_scal, part_const. fold m s s2. ring. }
      apply Rle_trans with (part n a l (fun i => m * (g i) ^ 2 + (-2 * s) * g i + s2)).
      - right. apply sumR_ext. intros i _. destruct (a i =? l)%nat; auto.
      - rewrite !part_plus, !part_scal, part_const. fold m s s2. change (part n a l (fun i => (f i - c) ^ 2)) with s2. pose proof (pow2_ge_0 s). nra.
    Qed.
    Lemma part_sumR l (f : nat -> nat -> R) p : part n a l (fun i => sumR p (f i)) = sumR p (fun j => part n a l (fun i => f i j)).
    Proof.
      unfold part. rewrite <- sumR_exch. apply sumR_ext. intros i _. destruct (a i =? l)%nat; auto. symmetry. now apply sumR_zero.
    Qed.
    Lemma spread_rows l : part n a l (fun i => part n a l (q i)) <= 2 * part n a l (fun _ => 1) * part n a l (fun i => sqd d (row i) (nth (a i) (mrows C) [])).
    Proof.
      apply Rle_trans with (part n a l (fun i => sumR d (fun j => part n a l (fun i' => (nth j (row i) 0 - nth j (row i') 0) ^ 2)))).
      { right. apply sumR_ext. intros i _. destruct (a i =? l)%nat; auto. unfold q, sqd. apply part_sumR. }
      rewrite part_sumR. apply Rle_trans with (sumR d (fun j => 2 * part n a l (fun _ => 1) * part n a l (fun i => (nth j (row i) 0 - nth j (nth l (mrows C) []) 0) ^ 2))).
      { apply sumR_le. intros j _. apply (spread1 l (fun i => nth j (row i) 0)). }
      rewrite sumR_scal. right. f_equal. rewrite <- part_sumR. apply sumR_ext. intros i _. destruct (Nat.eqb_spec (a i) l) as [<-|]; auto.
    Qed.
    Theorem seeding : has_distinct M k ->
      exists v, (forall first, (first < n)%nat -> mean_of (k - 1) (seeded M k first) (v first)) /\
        sumR n v / INR n <= 8 * (2 + ln (INR k)) * potential M C.
    Proof.
      intros HD. exists (fun i => after n q (k - 1) (q i)). split.
      - intros first Hf. apply (mean_of_ext (k - 1) (fun us => outcome_of (kpp_loop M us [first] (map row [first])))).
        + intros us Lus Hus. symmetry. now apply kpp_seeded.
        + rewrite (after_ext (k - 1) (q first) (dist [first])).
          * apply loop_mean; [discriminate|auto|repeat constructor; auto|]. now replace (length [first] + (k - 1))%nat with k by (cbn; lia).
          * intros j Hj. unfold q, dist. cbn. apply sqd_sym.
      - assert (Pn : (0 < n)%nat).
        { destruct HD as (Dl & LD & LTD & _). destruct Dl as [|x Dl]; [cbn in LD; lia|]. inversion LTD; subst. unfold n. lia. }
        eapply Rle_trans; [apply (sampling_bound n q a (fun i => sqd d (row i) (nth (a i) (mrows C) [])))|].
        + intros. apply sqd_ge0.
        + intros. apply sqd_sym.
        + intros. apply sqd_tri.
        + intros. apply sqd_ge0.
        + exact spread_rows.
        + exact Pn.
        + exact Pk.
        + intros i _. apply a_spec.
        + right. f_equal. apply sumR_ext. intros i _. apply a_spec.
    Qed.
  End Other.

  (** The law of the next choice. *)
  Theorem next_law k first us ch C : (first < n)%nat -> (0 < k)%nat -> length us = (k - 1)%nat -> Forall (fun u => 0 <= u < 1)%R us ->
    kpp M k first us = Ok (ch, C) -> 0 < potential M C -> forall i, (i < n)%nat ->
    is_RInt (fun u => picks_last M (S k) first (us ++ [u]) i) 0 1 (nearest_sq d (row i) (mrows C) / potential M C).
  Proof.
    intros Hf Pk Lu Hu Ek PP i Hi.
    destruct (kpp_spec M WM k first us Hf Lu Pk Hu) as (HK & _ & _). destruct (HK _ _ Ek) as ((_ & Lch & LT & EC1 & EC2) & DR).
    assert (NE : ch <> []) by (destruct ch; [cbn in Lch; lia|easy]). change (mrows C = map row ch) in EC2. change (NoDup (map row ch)) in DR.
    destruct (dist_is ch NE LT) as (idx & ds & E & L & P).
    assert (EP : potential M C = sumR n (dist ch)) by (unfold potential; rewrite EC2; reflexivity).
    assert (EL : rsum ds = sumR n (dist ch)) by (rewrite rsum_nth, L; apply sumR_ext; auto).
    assert (App : forall us ch0 cs0 u, kpp_loop M (us ++ [u]) ch0 cs0 = match kpp_loop M us ch0 cs0 with Ok (c, cs) => kpp_loop M [u] c cs | Err e => Err e | Panic => Panic end).
    { clear. induction us as [|v us IH]; intros ch0 cs0 u; [reflexivity|]. cbn [app]. change (kpp_loop M (v :: us ++ [u]) ch0 cs0) with
        (let? (_, dist) := find_closest_centroids (Mat cs0 (mcols M)) M in if negb (forallb nfinite dist) then Err InvalidData else
          let? next := sample_discretely dist v in let? r := ridx (mrows M) next in kpp_loop M (us ++ [u]) (ch0 ++ [next]) (cs0 ++ [r])).
      change (kpp_loop M (v :: us) ch0 cs0) with
        (let? (_, dist) := find_closest_centroids (Mat cs0 (mcols M)) M in if negb (forallb nfinite dist) then Err InvalidData else
          let? next := sample_discretely dist v in let? r := ridx (mrows M) next in kpp_loop M us (ch0 ++ [next]) (cs0 ++ [r])).
      destruct find_closest_centroids as [(x, ds)|e|]; cbn [rbind]; auto. destruct (negb _); auto. destruct sample_discretely; cbn [rbind]; auto. destruct ridx; cbn [rbind]; auto. }
    assert (EK' : kpp_loop M us [first] [row first] = Ok (ch, map row ch)).
    { unfold kpp, ridx in Ek. rewrite (nth_error_nth' _ []) in Ek by (exact Hf). cbn [rbind] in Ek. unfold row in *.
      destruct (kpp_loop M us [first] _) as [(c, cens)|e|]; try discriminate. cbn [rbind] in Ek. unfold rassert in Ek. destruct (_ =? _)%nat; [|discriminate].
      injection Ek as -> <-. cbn in EC2. now rewrite EC2. }
    assert (NN : forall p, In p ds -> (0 <= p)%R). { intros p Hp. destruct (In_nth _ _ 0%R Hp) as (j & Hj & <-). rewrite P by lia. apply nearest_ge0. }
    pose proof (sample_int (fun j => if (j =? i)%nat then 1 else 0) ds ltac:(lra) NN) as Q. rewrite L in Q.
    replace (sumR n (fun j => nth j ds 0 / rsum ds * (if (j =? i)%nat then 1 else 0))) with (nearest_sq d (row i) (mrows C) / potential M C) in Q.
    2: { rewrite (sumR_single n _ i Hi). - rewrite Nat.eqb_refl, P, EL, EP by auto. rewrite EC2. unfold dist. ring.
         - intros j _ Hj. apply Nat.eqb_neq in Hj. rewrite Hj. ring. }
    eapply is_RInt_ext; [|exact Q]. rewrite Rmin_left, Rmax_right by lra. intros u Hu'. cbv beta.
    destruct (step ch u NE LT DR ltac:(lra) ltac:(lra)) as (ds' & j & ES & L' & P' & Hj & Dj & Es).
    assert (ds' = ds) as ->. { apply (nth_ext _ _ 0 0); [congruence|]. intros x Hx. rewrite L' in Hx. now rewrite P, P'. }
    rewrite ES. unfold picks_last, kpp, ridx. rewrite (nth_error_nth' _ []) by (exact Hf). cbn [rbind]. change (nth first (mrows M) []) with (row first).
    rewrite App, EK', Es. cbn [kpp_loop rbind]. rewrite map_length, app_length. cbn [length]. replace (length ch + 1)%nat with (S k) by lia. rewrite Nat.eqb_refl. cbn [rassert].
    now rewrite last_last.
  Qed.
End Seed.
