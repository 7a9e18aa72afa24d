(** * Sampling by squared distance: the potential it leaves, in expectation

    The argument of Arthur and Vassilvitskii, "k-means++: the advantages of careful seeding" (2007), for a
    finite set of points known only through their squared distances [q]. [w i] is the squared distance of
    point [i] to the centre it has in some other clustering, whose clusters are the values of [a]. *)
From Coq Require Import List Arith Lia Bool Reals Lra.
From Verif Require Import Base BaseLemmas Num LinalgR MatR Proof_KMeans Proof_KMeans3.
Import ListNotations.
Local Open Scope R_scope.

(** The harmonic numbers. *)
Definition harm (t : nat) : R := sumR t (fun i => / INR (S i)).

Lemma harm_S t : harm (S t) = harm t + / INR (S t). Proof. reflexivity. Qed.
Lemma harm_ge0 t : 0 <= harm t.
Proof. apply sumR_ge0. intros i _. apply Rlt_le, Rinv_0_lt_compat, lt_0_INR. lia. Qed.
Lemma ln_ge x : 0 < x -> 1 - / x <= ln x.
Proof.
  intros P. assert (Q : 0 < / x) by now apply Rinv_0_lt_compat. pose proof (exp_ineq1_le (ln (/ x))) as E. rewrite exp_ln in E by auto.
  rewrite ln_Rinv in E by auto. lra.
Qed.
Lemma harm_ln t : (0 < t)%nat -> harm t <= 1 + ln (INR t).
Proof.
  induction t as [|t IH]; intros P; [lia|]. rewrite harm_S. destruct t as [|t].
  - unfold harm. cbn [sumR INR]. rewrite Rinv_1, ln_1. lra.
  - specialize (IH ltac:(lia)). assert (P1 : 0 < INR (S t)) by (apply lt_0_INR; lia). rewrite (S_INR (S t)).
    assert (E : ln (INR (S t) + 1) = ln (INR (S t)) + ln ((INR (S t) + 1) / INR (S t))).
    { rewrite <- ln_mult; [|lra|apply Rdiv_lt_0_compat; lra]. f_equal. field. lra. }
    pose proof (ln_ge ((INR (S t) + 1) / INR (S t)) ltac:(apply Rdiv_lt_0_compat; lra)) as L. rewrite E.
    replace (1 - / ((INR (S t) + 1) / INR (S t))) with (/ (INR (S t) + 1)) in L by (field; lra). lra.
Qed.
Lemma harm_pred k : (0 < k)%nat -> 1 + harm (k - 1) <= 2 + ln (INR k).
Proof.
  intros P. destruct k as [|k]; [lia|]. replace (S k - 1)%nat with k by lia. destruct k as [|k].
  - unfold harm. cbn [sumR INR]. rewrite ln_1. lra.
  - pose proof (harm_ln (S k) ltac:(lia)). assert (ln (INR (S k)) <= ln (INR (S (S k)))); [|lra].
    apply Rlt_le, ln_increasing; [apply lt_0_INR; lia|apply lt_INR; lia].
Qed.

Lemma cauchy_ones (l : list R) : rsum l * rsum l <= INR (length l) * rsum (map (fun x => x * x) l).
Proof.
  assert (K : forall l, 0 <= rsum (map (fun x => x * x) l)).
  { induction l0 as [|x l0 IH]; cbn [map]; [cbn; lra|]. change (0 <= x * x + rsum (map (fun x => x * x) l0)). nra. }
  induction l as [|x l IH]; [cbn; lra|]. cbn [map length]. rewrite S_INR.
  change ((x + rsum l) * (x + rsum l) <= (INR (length l) + 1) * (x * x + rsum (map (fun x => x * x) l))).
  set (s := rsum l) in *. set (p := rsum (map (fun x => x * x) l)) in *. pose proof (pos_INR (length l)) as P. specialize (K l). fold p in K.
  destruct (Req_dec (INR (length l)) 0) as [Z|Z].
  - rewrite Z in *. assert (s = 0) by nra. subst s. nra.
  - assert (2 * x * s <= INR (length l) * (x * x) + p); [|nra].
    assert (PP : 0 < INR (length l)) by lra. apply (Rmult_le_reg_l (INR (length l))); auto.
    assert (Q : 0 <= (INR (length l) * x - s) * (INR (length l) * x - s)) by apply Rle_0_sqr. nra.
Qed.

Section Sampling.
  Variables (n : nat) (q : nat -> nat -> R) (a : nat -> nat) (w : nat -> R).
  Hypothesis q0 : forall i j, (i < n)%nat -> (j < n)%nat -> 0 <= q i j.
  Hypothesis qs : forall i j, (i < n)%nat -> (j < n)%nat -> q i j = q j i.
  Hypothesis qt : forall i j l, (i < n)%nat -> (j < n)%nat -> (l < n)%nat -> q i j <= 2 * q i l + 2 * q l j.
  Hypothesis w0 : forall i, (i < n)%nat -> 0 <= w i.

  (** The sum over the points of cluster [l]. *)
  Definition part (l : nat) (f : nat -> R) : R := sumR n (fun i => if (a i =? l)%nat then f i else 0).
  Hypothesis spread : forall l, part l (fun i => part l (q i)) <= 2 * part l (fun _ => 1) * part l w.

  (** Squared distance to the nearest chosen point after choosing [i] too. *)
  Definition closer (D : nat -> R) (i : nat) : nat -> R := fun j => Rmin (D j) (q i j).
  (** The expected potential after [t] more choices, each with probability proportional to the squared distance. *)
  Fixpoint after (t : nat) (D : nat -> R) : R :=
    match t with
    | O => sumR n D
    | S t' => sumR n (fun i => D i / sumR n D * after t' (closer D i))
    end.
  Definition good (D : nat -> R) : Prop :=
    (forall i, (i < n)%nat -> 0 <= D i) /\ (forall i j, (i < n)%nat -> (j < n)%nat -> D i <= 2 * D j + 2 * q i j).

  Lemma good_q i : (i < n)%nat -> good (q i).
  Proof. intros H. split; [auto|]. intros p j Hp Hj. rewrite (qs p j) by auto. now apply qt. Qed.
  Lemma good_closer D i : good D -> (i < n)%nat -> good (closer D i).
  Proof.
    intros (G0 & G1) Hi. split.
    - intros j Hj. apply Rmin_glb; auto.
    - intros p j Hp Hj. unfold closer. pose proof (Rmin_l (D p) (q i p)) as A. pose proof (Rmin_r (D p) (q i p)) as B.
      unfold Rmin at 2. destruct Rle_dec.
      + pose proof (G1 p j Hp Hj). lra.
      + pose proof (qt i p j Hi Hp Hj) as C. rewrite (qs j p) in C by auto. lra.
  Qed.

  Lemma part_le l f g : (forall i, (i < n)%nat -> a i = l -> f i <= g i) -> part l f <= part l g.
  Proof. intros H. apply sumR_le. intros i Hi. destruct (Nat.eqb_spec (a i) l); [auto|lra]. Qed.
  Lemma part_ge0 l f : (forall i, (i < n)%nat -> 0 <= f i) -> 0 <= part l f.
  Proof. intros H. apply sumR_ge0. intros i Hi. destruct (a i =? l)%nat; [auto|lra]. Qed.
  Lemma part_scal l c f : part l (fun i => c * f i) = c * part l f.
  Proof. unfold part. rewrite <- sumR_scal. apply sumR_ext. intros i _. destruct (a i =? l)%nat; ring. Qed.
  Lemma part_scal_r l c f : part l (fun i => f i * c) = part l f * c.
  Proof. unfold part. rewrite <- sumR_scal_r. apply sumR_ext. intros i _. destruct (a i =? l)%nat; ring. Qed.
  Lemma part_plus l f g : part l (fun i => f i + g i) = part l f + part l g.
  Proof. unfold part. rewrite <- sumR_plus. apply sumR_ext. intros i _. destruct (a i =? l)%nat; ring. Qed.
  Lemma part_card l : 0 <= part l (fun _ => 1).
  Proof. apply part_ge0. intros. lra. Qed.
  Lemma part_const l c : part l (fun _ => c) = part l (fun _ => 1) * c.
  Proof. rewrite <- part_scal_r. apply sumR_ext. intros i _. destruct (a i =? l)%nat; ring. Qed.
  Lemma part_empty l f : part l (fun _ => 1) = 0 -> part l f = 0.
  Proof.
    intros Z. apply sumR_zero. intros i Hi. unfold part in Z. destruct (a i =? l)%nat eqn:E; auto. exfalso.
    assert (K : forall j, (j < n)%nat -> 0 <= (if (a j =? l)%nat then 1 else 0)) by (intros j _; destruct (a j =? l)%nat; lra).
    pose proof (sumR_zero_inv n _ K Z i Hi) as Q. cbv beta in Q. rewrite E in Q. lra.
  Qed.

  (** A point of cluster [l] taken with probability proportional to its squared distance brings the cluster,
      in expectation, within 8 times what the other clustering has there. *)
  Lemma cluster_pick D l : good D -> part l (fun i => D i * part l (closer D i)) <= 8 * part l w * part l D.
  Proof.
    intros (G0 & G1). set (m := part l (fun _ => 1)). pose proof (part_card l) as Pm. fold m in Pm.
    destruct (Req_dec m 0) as [Z|Z].
    - rewrite !(part_empty l _ Z). lra.
    - assert (PD : 0 <= part l D) by (apply part_ge0; auto).
      assert (Pw : 0 <= part l w) by (apply part_ge0; auto).
      apply (Rmult_le_reg_l m); [lra|]. rewrite <- part_scal.
      apply Rle_trans with (part l (fun i => 4 * part l D * part l (q i))).
      + apply part_le. intros i Hi Ea.
        assert (E1 : m * D i <= 2 * part l D + 2 * part l (q i)).
        { unfold m. rewrite <- part_const, <- !part_scal, <- part_plus. apply part_le. intros j Hj _. now apply G1. }
        assert (E2 : part l (closer D i) <= part l (q i)) by (apply part_le; intros; apply Rmin_r).
        assert (E3 : part l (closer D i) <= part l D) by (apply part_le; intros; apply Rmin_l).
        assert (E4 : 0 <= part l (closer D i)) by (apply part_ge0; intros; apply Rmin_glb; auto).
        assert (E5 : 0 <= part l (q i)) by (apply part_ge0; auto).
        apply Rle_trans with ((2 * part l D + 2 * part l (q i)) * part l (closer D i)).
        * rewrite <- Rmult_assoc. apply Rmult_le_compat_r; auto.
        * assert (part l D * part l (closer D i) <= part l D * part l (q i)) by (apply Rmult_le_compat_l; auto).
          assert (part l (q i) * part l (closer D i) <= part l (q i) * part l D) by (apply Rmult_le_compat_l; auto). lra.
      + rewrite part_scal. pose proof (spread l) as Sp. fold m in Sp. 
        apply Rle_trans with (4 * part l D * (2 * m * part l w)); [|lra]. apply Rmult_le_compat_l; [lra|exact Sp].
  Qed.

  (** The clusters [unc] without chosen point, and the others. *)
  Definition inb (unc : list nat) (l : nat) : bool := existsb (Nat.eqb l) unc.
  Definition pu (unc : list nat) (f : nat -> R) : R := sumR n (fun i => if inb unc (a i) then f i else 0).
  Definition pc (unc : list nat) (f : nat -> R) : R := sumR n (fun i => if inb unc (a i) then 0 else f i).
  Lemma inb_In unc l : inb unc l = true <-> In l unc.
  Proof. unfold inb. rewrite existsb_exists. split; [intros (x & H & E); apply Nat.eqb_eq in E; now subst|intros H; exists l; split; auto; apply Nat.eqb_refl]. Qed.
  Lemma pu_pc unc f : pu unc f + pc unc f = sumR n f.
  Proof. unfold pu, pc. rewrite <- sumR_plus. apply sumR_ext. intros i _. destruct inb; ring. Qed.
  Lemma pu_sum unc f : NoDup unc -> pu unc f = rsum (map (fun l => part l f) unc).
  Proof.
    induction 1 as [|l unc NI ND IH]; [apply sumR_zero; auto|]. cbn [map]. change (pu (l :: unc) f = part l f + rsum (map (fun l => part l f) unc)).
    rewrite <- IH. unfold pu, part. rewrite <- sumR_plus. apply sumR_ext. intros i _. unfold inb. cbn [existsb].
    destruct (Nat.eqb_spec (a i) l) as [E|E]; cbn [orb]; [|ring]. destruct (existsb (Nat.eqb (a i)) unc) eqn:B; [|ring]. exfalso. apply NI. rewrite <- E. now apply inb_In.
  Qed.
  Lemma pu_le unc f g : (forall i, (i < n)%nat -> f i <= g i) -> pu unc f <= pu unc g.
  Proof. intros H. apply sumR_le. intros i Hi. destruct inb; [auto|lra]. Qed.
  Lemma pc_le unc f g : (forall i, (i < n)%nat -> f i <= g i) -> pc unc f <= pc unc g.
  Proof. intros H. apply sumR_le. intros i Hi. destruct inb; [lra|auto]. Qed.
  Lemma pu_ge0 unc f : (forall i, (i < n)%nat -> 0 <= f i) -> 0 <= pu unc f.
  Proof. intros H. apply sumR_ge0. intros i Hi. destruct inb; [auto|lra]. Qed.
  Lemma pc_ge0 unc f : (forall i, (i < n)%nat -> 0 <= f i) -> 0 <= pc unc f.
  Proof. intros H. apply sumR_ge0. intros i Hi. destruct inb; [lra|auto]. Qed.
  Definition less (l : nat) (unc : list nat) : list nat := filter (fun x => negb (x =? l)%nat) unc.
  Lemma inb_less l unc x : inb (less l unc) x = inb unc x && negb (x =? l)%nat.
  Proof.
    apply eq_true_iff_eq. rewrite andb_true_iff, !inb_In. unfold less. rewrite filter_In. reflexivity.
  Qed.
  Lemma less_length l unc : NoDup unc -> In l unc -> length (less l unc) = (length unc - 1)%nat.
  Proof.
    induction 1 as [|x unc NI ND IH]; [easy|]. intros H. cbn [less filter]. destruct (Nat.eqb_spec x l) as [->|E]; cbn [negb length].
    - assert (K : less l unc = unc).
      { clear -NI. unfold less. induction unc as [|y unc IH]; auto. cbn. destruct (Nat.eqb_spec y l) as [->|]; [exfalso; apply NI; now left|].
        cbn. f_equal. apply IH. intros ?. apply NI. now right. }
      fold (less l unc). rewrite K. lia.
    - destruct H as [->|H]; [congruence|]. fold (less l unc). rewrite IH by auto. destruct unc; [easy|cbn; lia].
  Qed.
  Lemma pu_less l unc f : In l unc -> pu (less l unc) f = pu unc f - part l f.
  Proof.
    intros H. unfold pu, part. rewrite <- sumR_minus. apply sumR_ext. intros i _. rewrite inb_less. destruct (Nat.eqb_spec (a i) l) as [E|E]; cbn [negb].
    - assert (B : inb unc (a i) = true) by (apply inb_In; now rewrite E). rewrite B. cbn. ring.
    - rewrite andb_true_r. destruct inb; ring.
  Qed.
  Lemma pc_less l unc f : In l unc -> pc (less l unc) f = pc unc f + part l f.
  Proof. intros H. pose proof (pu_pc unc f). pose proof (pu_pc (less l unc) f). pose proof (pu_less l unc f H). lra. Qed.

  Lemma rsum_le_map {A} (f g : A -> R) l : (forall x, In x l -> f x <= g x) -> rsum (map f l) <= rsum (map g l).
  Proof. induction l as [|x l IH]; intros H; [cbn; lra|]. cbn [map]. change (f x + rsum (map f l) <= g x + rsum (map g l)). apply Rplus_le_compat; [apply H; now left|apply IH; intros; apply H; now right]. Qed.
  Lemma rsum_lin {A} (f g : A -> R) c d l : rsum (map (fun x => c * f x + d * g x) l) = c * rsum (map f l) + d * rsum (map g l).
  Proof. induction l as [|x l IH]; [cbn; ring|]. cbn [map]. change (c * f x + d * g x + rsum (map (fun x => c * f x + d * g x) l) = c * (f x + rsum (map f l)) + d * (g x + rsum (map g l))). rewrite IH. ring. Qed.

  Lemma after_bound t : forall unc D, NoDup unc -> (t <= length unc)%nat -> good D ->
    after t D <= (pc unc D + 8 * pu unc w) * (1 + harm t) + INR (length unc - t) / INR (length unc) * pu unc D.
  Proof.
    induction t as [|t IH]; intros unc D ND Lt G.
    - cbn [after]. destruct G as (G0 & G1). pose proof (pu_ge0 unc w w0) as Ow. pose proof (pu_ge0 unc D G0) as Du. unfold harm. cbn [sumR].
      rewrite Nat.sub_0_r. rewrite <- (pu_pc unc D). destruct unc as [|l unc].
      + assert (Z : pu [] D = 0) by (apply sumR_zero; auto). rewrite Z. lra.
      + unfold Rdiv. rewrite Rinv_r; [lra|]. apply not_0_INR. cbn. lia.
    - pose proof G as (G0 & G1). cbn [after]. set (S := sumR n D). set (u := length unc) in *. set (Pc := pc unc D). set (Pu := pu unc D). set (O := pu unc w).
      assert (HPc : 0 <= Pc) by (apply pc_ge0; auto). assert (HPu : 0 <= Pu) by (apply pu_ge0; auto). assert (HO : 0 <= O) by (apply pu_ge0; auto).
      assert (ES : S = Pu + Pc) by (unfold S, Pu, Pc; now rewrite pu_pc).
      pose proof (harm_ge0 t) as Ht. pose proof (harm_ge0 (Datatypes.S t)) as HSt.
      assert (Hu : 0 < INR u) by (apply lt_0_INR; lia).
      assert (Cge : 0 <= INR (u - Datatypes.S t) / INR u) by (apply Rmult_le_pos; [apply pos_INR|apply Rlt_le, Rinv_0_lt_compat, Hu]).
      destruct (Req_dec S 0) as [Z|NZ].
      { rewrite sumR_zero.
        - assert (0 <= (Pc + 8 * O) * (1 + harm (Datatypes.S t))) by (apply Rmult_le_pos; lra). assert (0 <= INR (u - Datatypes.S t) / INR u * Pu) by (apply Rmult_le_pos; lra). lra.
        - intros i Hi. rewrite (sumR_zero_inv n D G0 Z i Hi). unfold Rdiv. ring. }
      assert (PS : 0 < S) by lra.
      set (K := (Pc + 8 * O) * (1 + harm t)).
      set (c1 := INR (u - t) / INR u). set (c2 := INR (u - 1 - t) / INR (u - 1)).
      assert (c1ge : 0 <= c1) by (apply Rmult_le_pos; [apply pos_INR|apply Rlt_le, Rinv_0_lt_compat, Hu]).
      assert (c2ge : 0 <= c2).
      { unfold c2. destruct (Nat.eq_dec (u - 1) 0) as [E|E].
        - replace (u - 1 - t)%nat with 0%nat by lia. cbn [INR]. unfold Rdiv. lra.
        - apply Rmult_le_pos; [apply pos_INR|apply Rlt_le, Rinv_0_lt_compat, lt_0_INR; lia]. }
      (* a point of a cluster that has one already *)
      assert (B1 : pc unc (fun i => D i * after t (closer D i)) <= Pc * (K + c1 * Pu)).
      { unfold Pc at 1. unfold pc at 2. rewrite <- sumR_scal_r. apply sumR_le. intros i Hi. destruct (inb unc (a i)) eqn:Eb; [lra|].
        apply Rmult_le_compat_l; auto. eapply Rle_trans; [apply (IH unc); auto using good_closer; fold u; lia|]. fold u c1 O. apply Rplus_le_compat.
        - unfold K. apply Rmult_le_compat_r; [lra|]. apply Rplus_le_compat_r. apply pc_le. intros; apply Rmin_l.
        - apply Rmult_le_compat_l; auto. apply pu_le. intros; apply Rmin_l. }
      (* a point of one of the other clusters *)
      assert (B2 : forall l, In l unc -> part l (fun i => D i * after t (closer D i)) <= (K + c2 * Pu) * part l D + - c2 * (part l D * part l D)).
      { intros l Hl. pose proof (part_ge0 l D G0) as HpD.
        apply Rle_trans with (part l (fun i => D i * ((Pc + 8 * (O - part l w)) * (1 + harm t) + c2 * (Pu - part l D)) + (1 + harm t) * (D i * part l (closer D i)))).
        - apply part_le. intros i Hi Ea. pose proof (IH (less l unc) (closer D i)) as Q. rewrite less_length in Q by auto. fold u in Q.
          specialize (Q (NoDup_filter _ ND) ltac:(lia) (good_closer D i G Hi)). fold c2 in Q. rewrite pc_less, !pu_less in Q by auto. fold O in Q.
          assert (q1 : pc unc (closer D i) <= Pc) by (apply pc_le; intros; apply Rmin_l).
          assert (q2 : pu (less l unc) (closer D i) <= pu (less l unc) D) by (apply pu_le; intros; apply Rmin_l). rewrite !pu_less in q2 by auto. fold Pu in q2.
          assert (q3 : c2 * (pu unc (closer D i) - part l (closer D i)) <= c2 * (Pu - part l D)) by (apply Rmult_le_compat_l; auto).
          assert (q4 : (pc unc (closer D i) + part l (closer D i) + 8 * (O - part l w)) * (1 + harm t) <= (Pc + part l (closer D i) + 8 * (O - part l w)) * (1 + harm t)) by (apply Rmult_le_compat_r; lra).
          pose proof (G0 i Hi) as Di.
          apply Rle_trans with (D i * ((Pc + part l (closer D i) + 8 * (O - part l w)) * (1 + harm t) + c2 * (Pu - part l D))); [apply Rmult_le_compat_l; lra|]. right. ring.
        - rewrite part_plus, part_scal_r, part_scal. pose proof (cluster_pick D l G) as CP.
          assert (q5 : (1 + harm t) * part l (fun i => D i * part l (closer D i)) <= (1 + harm t) * (8 * part l w * part l D)) by (apply Rmult_le_compat_l; lra).
          unfold K. nra. }
      assert (B3 : pu unc (fun i => D i * after t (closer D i)) <= K * Pu + c2 * (Pu * Pu - Pu * Pu / INR u)).
      { rewrite pu_sum by auto. eapply Rle_trans; [apply rsum_le_map, B2|]. rewrite rsum_lin. rewrite <- pu_sum by auto. fold Pu.
        pose proof (cauchy_ones (map (fun l => part l D) unc)) as CO. rewrite <- pu_sum, map_map, map_length in CO by auto. fold Pu u in CO.
        set (sq := rsum (map (fun l => part l D * part l D) unc)) in *.
        assert (CO' : Pu * Pu / INR u <= sq). { apply (Rmult_le_reg_l (INR u)); auto. replace (INR u * (Pu * Pu / INR u)) with (Pu * Pu) by (field; lra). exact CO. }
        assert (c2 * (Pu * Pu / INR u) <= c2 * sq) by (apply Rmult_le_compat_l; auto). lra. }
      assert (E2 : c2 * (Pu * Pu - Pu * Pu / INR u) = INR (u - Datatypes.S t) / INR u * (Pu * Pu)).
      { unfold c2. replace (u - 1 - t)%nat with (u - Datatypes.S t)%nat by lia. destruct (Nat.eq_dec (u - 1) 0) as [E|E].
        - replace (u - Datatypes.S t)%nat with 0%nat by lia. cbn [INR]. unfold Rdiv. ring.
        - rewrite (minus_INR u 1) by lia. cbn [INR]. field. assert (1 < INR u) by (apply (lt_INR 1); lia). lra. }
      assert (E1 : c1 = INR (u - Datatypes.S t) / INR u + / INR u).
      { unfold c1. replace (u - t)%nat with (Datatypes.S (u - Datatypes.S t)) by lia. rewrite S_INR. field. lra. }
      set (d := INR (u - Datatypes.S t) / INR u) in *.
      assert (T : S * (sumR n (fun i => D i / S * after t (closer D i))) <= S * ((Pc + 8 * O) * (1 + harm (Datatypes.S t)) + d * Pu)).
      { rewrite <- sumR_scal. rewrite (sumR_ext _ _ (fun i => D i * after t (closer D i))) by (intros; field; lra).
        rewrite <- (pu_pc unc). rewrite E2 in B3. rewrite E1 in B1. rewrite harm_S.
        assert (Iu : / INR u <= / INR (Datatypes.S t)). { apply Rinv_le_contravar; [apply lt_0_INR; lia|apply le_INR; lia]. }
        assert (Iu0 : 0 < / INR u) by now apply Rinv_0_lt_compat.
        assert (F : Pc * (/ INR u * Pu) <= S * ((Pc + 8 * O) * / INR (Datatypes.S t))).
        { apply Rle_trans with (Pc * (/ INR (Datatypes.S t) * Pu)).
          - apply Rmult_le_compat_l; auto. apply Rmult_le_compat_r; auto.
          - assert (I0 : 0 < / INR (Datatypes.S t)) by (apply Rinv_0_lt_compat, lt_0_INR; lia).
            replace (Pc * (/ INR (Datatypes.S t) * Pu)) with (/ INR (Datatypes.S t) * (Pc * Pu)) by ring.
            replace (S * ((Pc + 8 * O) * / INR (Datatypes.S t))) with (/ INR (Datatypes.S t) * (S * (Pc + 8 * O))) by ring.
            apply Rmult_le_compat_l; [lra|]. rewrite ES. nra. }
        unfold K in *. rewrite ES in *. nra. }
      apply Rmult_le_reg_l in T; auto.
  Qed.

  (** The first point uniform, the others by squared distance. *)
  Theorem sampling_bound k : (0 < n)%nat -> (0 < k)%nat -> (forall i, (i < n)%nat -> (a i < k)%nat) ->
    sumR n (fun i => after (k - 1) (q i)) / INR n <= 8 * (2 + ln (INR k)) * sumR n w.
  Proof.
    intros Pn Pk Ha. set (O := sumR n w). set (H1 := 1 + harm (k - 1)).
    assert (H1p : 1 <= H1) by (unfold H1; pose proof (harm_ge0 (k - 1)); lra).
    assert (Pall : forall f, pu (seq 0 k) f = sumR n f).
    { intros f. apply sumR_ext. intros i Hi. assert (B : inb (seq 0 k) (a i) = true) by (apply inb_In, in_seq; specialize (Ha i Hi); lia). now rewrite B. }
    assert (PO : 0 <= O) by (apply sumR_ge0; auto).
    assert (B : forall l, In l (seq 0 k) -> part l (fun i => after (k - 1) (q i)) <= 8 * H1 * O * part l (fun _ => 1)).
    { intros l Hl. pose proof (part_card l) as Pm. pose proof (part_ge0 l w w0) as Pw.
      apply Rle_trans with (part l (fun i => H1 * part l (q i) + 8 * (O - part l w) * H1)).
      - apply part_le. intros i Hi Ea. pose proof (after_bound (k - 1) (less l (seq 0 k)) (q i) (NoDup_filter _ (seq_NoDup k 0))) as Q.
        rewrite less_length, seq_length in Q by (auto using seq_NoDup). specialize (Q ltac:(lia) (good_q i Hi)). rewrite Nat.sub_diag in Q.
        rewrite pc_less, !pu_less, !Pall in Q by auto.
        assert (Z : pc (seq 0 k) (q i) = 0) by (pose proof (pu_pc (seq 0 k) (q i)) as E; rewrite Pall in E; lra).
        rewrite Z in Q. fold O H1 in Q. cbn [INR] in Q. unfold Rdiv in Q. lra.
      - rewrite part_plus, part_scal, part_const. pose proof (spread l) as Sp. set (m := part l (fun _ => 1)) in *.
        assert (H1 * part l (fun i => part l (q i)) <= H1 * (2 * m * part l w)) by (apply Rmult_le_compat_l; lra).
        assert (0 <= H1 * m * part l w) by (apply Rmult_le_pos; [apply Rmult_le_pos; lra|auto]). nra. }
    assert (Tot : sumR n (fun i => after (k - 1) (q i)) <= 8 * H1 * O * INR n).
    { rewrite <- Pall. rewrite pu_sum by apply seq_NoDup. eapply Rle_trans; [apply rsum_le_map, B|].
      replace (INR n) with (sumR n (fun _ => 1)) by (rewrite sumR_const; ring). rewrite <- (Pall (fun _ => 1)), pu_sum by apply seq_NoDup.
      right. rewrite <- (Rplus_0_r (_ * rsum _)). rewrite <- (Rmult_0_l (rsum (map (fun _ : nat => 0) (seq 0 k)))). rewrite <- rsum_lin. f_equal. apply map_ext. intros; ring. }
    assert (Pn' : 0 < INR n) by now apply lt_0_INR. apply (Rmult_le_reg_r (INR n)); auto. unfold Rdiv. rewrite Rmult_assoc, Rinv_l, Rmult_1_r by lra.
    pose proof (harm_pred k Pk) as HP. fold H1 in HP. eapply Rle_trans; [exact Tot|]. apply Rmult_le_compat_r; [lra|]. nra.
  Qed.
End Sampling.
