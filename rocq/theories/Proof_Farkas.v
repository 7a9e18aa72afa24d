(** Farkas' lemma and Stiemke's lemma for finitely many linear functionals. *)
From Coq Require Import List Arith Lia Bool Reals Lra Classical.
From Verif Require Import Base BaseLemmas Num MatR Proof_KMeans Proof_Inverse Proof_PCABest.
Local Open Scope R_scope.

Section Functionals.
  Context {V : Type} (lc : V -> R -> V -> V).

  Definition lin (f : V -> R) : Prop := forall u s v, f (lc u s v) = f u + s * f v.

  Theorem farkas n : forall (b : nat -> V -> R) c, (forall i, (i < n)%nat -> lin (b i)) -> lin c ->
    (forall v, (forall i, (i < n)%nat -> 0 <= b i v) -> 0 <= c v) ->
    exists l, (forall i, 0 <= l i) /\ forall v, c v = sumR n (fun i => l i * b i v).
  Proof.
    induction n as [|n IH]; intros b c Hb Hc H.
    - exists (fun _ => 0). split; [intros; lra|]. intros v. cbn [sumR]. pose proof (H v ltac:(intros; lia)).
      pose proof (H (lc v (-2) v) ltac:(intros; lia)) as K. rewrite Hc in K. lra.
    - destruct (classic (forall v, (forall i, (i < n)%nat -> 0 <= b i v) -> 0 <= c v)) as [K|K].
      + destruct (IH b c ltac:(intros; apply Hb; lia) Hc K) as (l & Pl & El).
        exists (fun i => if (i =? n)%nat then 0 else l i). split.
        * intros i. destruct (i =? n)%nat; [lra|apply Pl].
        * intros v. cbn [sumR]. rewrite Nat.eqb_refl, Rmult_0_l, Rplus_0_r, El. apply sumR_ext. intros i Hi.
          destruct (Nat.eqb_spec i n); [lia|reflexivity].
      + apply not_all_ex_not in K. destruct K as (v0 & K). apply imply_to_and in K. destruct K as (K1 & K2). apply Rnot_le_lt in K2.
        assert (K3 : b n v0 < 0).
        { destruct (Rlt_dec (b n v0) 0) as [|Q]; auto. exfalso. specialize (H v0).
          assert (0 <= c v0); [|lra]. apply H. intros i Hi. destruct (Nat.eq_dec i n) as [->|]; [lra|apply K1; lia]. }
        set (t := - / b n v0). assert (T : 0 < t). { unfold t. apply Ropp_0_gt_lt_contravar. now apply Rinv_lt_0_compat. }
        assert (Tn : t * b n v0 = -1) by (unfold t; field; lra).
        set (ad := fun (f : V -> R) v => f v + b n v * (t * f v0)).
        assert (adlin : forall f, lin f -> lin (ad f)).
        { intros f Hf u s v. unfold ad. rewrite Hf, (Hb n ltac:(lia)). ring. }
        assert (adv : forall f, lin f -> forall v, ad f v = f (lc v (t * b n v) v0)).
        { intros f Hf v. unfold ad. rewrite Hf. ring. }
        destruct (IH (fun i => ad (b i)) (ad c)) as (l & Pl & El).
        * intros i Hi. apply adlin, Hb. lia.
        * now apply adlin.
        * intros v Hv. rewrite adv by exact Hc. apply H. intros i Hi. destruct (Nat.eq_dec i n) as [->|Q].
          { rewrite (Hb n ltac:(lia)). replace (t * b n v * b n v0) with (b n v * (t * b n v0)) by ring. rewrite Tn. lra. }
          { specialize (Hv i ltac:(lia)). cbv beta in Hv. rewrite adv in Hv by (apply Hb; lia). exact Hv. }
        * set (w := sumR n (fun i => l i * (t * b i v0)) - t * c v0).
          assert (W : 0 <= w).
          { unfold w. assert (0 <= sumR n (fun i => l i * (t * b i v0))).
            { apply sumR_ge0. intros i Hi. apply Rmult_le_pos; [apply Pl|]. apply Rmult_le_pos; [lra|]. now apply K1. }
            nra. }
          exists (fun i => if (i =? n)%nat then w else l i). split.
          { intros i. destruct (i =? n)%nat; [exact W|apply Pl]. }
          intros v. specialize (El v). unfold ad in El. cbn [sumR]. rewrite Nat.eqb_refl.
          rewrite (sumR_ext n (fun i => (if (i =? n)%nat then w else l i) * b i v) (fun i => l i * b i v)).
          2: { intros i Hi. destruct (Nat.eqb_spec i n); [lia|reflexivity]. }
          rewrite (sumR_ext n _ (fun i => l i * b i v + b n v * (l i * (t * b i v0)))) in El by (intros; ring).
          rewrite sumR_plus, sumR_scal in El. unfold w. lra.
  Qed.

  (** If no vector makes all the functionals nonnegative except when it makes all of them zero, then they are balanced. *)
  Theorem stiemke n (b : nat -> V -> R) : (forall i, (i < n)%nat -> lin (b i)) ->
    (forall v, (forall i, (i < n)%nat -> 0 <= b i v) -> forall i, (i < n)%nat -> b i v = 0) ->
    exists l, (forall i, (i < n)%nat -> 1 <= l i) /\ forall v, sumR n (fun i => l i * b i v) = 0.
  Proof.
    intros Hb H.
    assert (K : forall m, (m <= n)%nat -> exists l, (forall i, 0 <= l i) /\ (forall i, (i < m)%nat -> 1 <= l i) /\ forall v, sumR n (fun i => l i * b i v) = 0).
    { induction m as [|m IH]; intros Hm.
      - exists (fun _ => 0). split; [intros; lra|]. split; [intros; lia|]. intros v. apply sumR_zero. intros; ring.
      - destruct (IH ltac:(lia)) as (l & Pl & Ol & Zl).
        destruct (farkas n b (fun v => - b m v) Hb) as (l' & Pl' & El').
        + intros u s v. rewrite (Hb m ltac:(lia)). ring.
        + intros v Hv. rewrite (H v Hv m) by lia. lra.
        + exists (fun i => l i + l' i + dlt m i). unfold dlt. split; [|split].
          * intros i. pose proof (Pl i). pose proof (Pl' i). destruct (m =? i)%nat; lra.
          * intros i Hi. pose proof (Pl i). pose proof (Pl' i). destruct (Nat.eqb_spec m i) as [->|Q]; [lra|].
            specialize (Ol i ltac:(lia)). lra.
          * intros v. rewrite (sumR_ext n _ (fun i => (l i * b i v + l' i * b i v) + dlt m i * b i v)) by (intros; unfold dlt; ring).
            rewrite !sumR_plus, Zl, <- El', sum_dlt by lia. ring. }
    destruct (K n (Nat.le_refl n)) as (l & _ & Ol & Zl). eauto.
  Qed.

  (** A functional that vanishes where all the others do is a combination of them, so it is bounded by them. *)
  Lemma combination n (b : nat -> V -> R) c : (forall i, (i < n)%nat -> lin (b i)) -> lin c ->
    (forall v, (forall i, (i < n)%nat -> b i v = 0) -> c v = 0) -> exists l, forall v, c v = sumR n (fun i => l i * b i v).
  Proof.
    intros Hb Hc H. destruct (farkas (n + n) (fun i v => if (i <? n)%nat then b i v else - b (i - n)%nat v) c) as (l & _ & E).
    - intros i Hi u s v. destruct (Nat.ltb_spec i n); rewrite Hb by lia; ring.
    - exact Hc.
    - intros v Hv. rewrite H; [lra|]. intros i Hi.
      pose proof (Hv i ltac:(lia)) as K1. pose proof (Hv (n + i)%nat ltac:(lia)) as K2. cbv beta in K1, K2.
      destruct (Nat.ltb_spec i n); [|lia]. destruct (Nat.ltb_spec (n + i) n); [lia|].
      replace (n + i - n)%nat with i in K2 by lia. lra.
    - exists (fun i => l i - l (n + i)%nat). intros v. rewrite E, sumR_app', <- sumR_plus. apply sumR_ext. intros i Hi.
      destruct (Nat.ltb_spec i n); [|lia]. destruct (Nat.ltb_spec (n + i) n); [lia|]. replace (n + i - n)%nat with i by lia. ring.
  Qed.
  Lemma sum_sq_le n (l x : nat -> R) : sumR n (fun i => l i * x i) ^ 2 <= sumR n (fun i => l i ^ 2) * sumR n (fun i => x i ^ 2).
  Proof.
    induction n as [|n IH]; cbn [sumR]; [lra|].
    set (A := sumR n (fun i => l i * x i)) in *. set (B := sumR n (fun i => l i ^ 2)) in *. set (C := sumR n (fun i => x i ^ 2)) in *.
    assert (0 <= B) by (unfold B; apply sumR_ge0; intros; apply pow2_ge_0).
    assert (0 <= C) by (unfold C; apply sumR_ge0; intros; apply pow2_ge_0). clearbody A B C.
    generalize dependent (l n). generalize dependent (x n). intros a b.
    assert (2 * A * (b * a) <= B * a ^ 2 + b ^ 2 * C); [|nra].
    assert (Q : (A * (b * a)) ^ 2 <= (B * a ^ 2) * (b ^ 2 * C)).
    { replace ((A * (b * a)) ^ 2) with (A ^ 2 * (b * a) ^ 2) by ring. replace (B * a ^ 2 * (b ^ 2 * C)) with (B * C * (b * a) ^ 2) by ring.
      apply Rmult_le_compat_r; [apply pow2_ge_0|exact IH]. }
    assert (0 <= B * a ^ 2) by (apply Rmult_le_pos; [auto|apply pow2_ge_0]).
    assert (0 <= b ^ 2 * C) by (apply Rmult_le_pos; [apply pow2_ge_0|auto]).
    set (P := B * a ^ 2) in *. set (S := b ^ 2 * C) in *. set (T := A * (b * a)) in *. replace (2 * A * (b * a)) with (2 * T) by (unfold T; ring).
    clearbody P S T. destruct (Rle_dec (2 * T) (P + S)) as [|Z]; auto. exfalso. apply Rnot_le_lt in Z.
    assert ((P + S) * (P + S) < (2 * T) * (2 * T)) by (apply Rmult_le_0_lt_compat; lra). pose proof (Rle_0_sqr (P - S)) as Y. unfold Rsqr in Y. lra.
  Qed.
  Theorem coercive n d (b : nat -> V -> R) (e : nat -> V -> R) : (forall i, (i < n)%nat -> lin (b i)) -> (forall k, (k < d)%nat -> lin (e k)) ->
    (forall v, (forall i, (i < n)%nat -> b i v = 0) -> forall k, (k < d)%nat -> e k v = 0) ->
    exists C, 0 < C /\ forall v, sumR d (fun k => e k v ^ 2) <= C * sumR n (fun i => b i v ^ 2).
  Proof.
    intros Hb He H. induction d as [|d IH].
    - exists 1. split; [lra|]. intros v. cbn [sumR]. rewrite Rmult_1_l. apply sumR_ge0. intros; apply pow2_ge_0.
    - destruct IH as (C & PC & HC); [intros; apply He; lia|intros; apply H; auto|].
      destruct (combination n b (e d) Hb (He d ltac:(lia))) as (l & El); [intros v Hv; apply H; auto|].
      set (B := sumR n (fun i => l i ^ 2)). assert (0 <= B) by (unfold B; apply sumR_ge0; intros; apply pow2_ge_0).
      exists (C + B). split; [lra|]. intros v. cbn [sumR]. specialize (HC v). rewrite (El v).
      pose proof (sum_sq_le n l (fun i => b i v)) as K. cbv beta in K. fold B in K. lra.
  Qed.
End Functionals.
