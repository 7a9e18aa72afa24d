(** Lemmas for [Props_Sampling]. *)
From Coq Require Import List Arith Lia Bool Reals Lra.
From Verif Require Import Base BaseLemmas Model_Rand Proof_Rand Spec_NetSum Proof_GPCopies.
Import ListNotations.
Local Open Scope R_scope.

Section Sampling.
  Context {A : Type} (f : A -> R).
  Notation tot := (total_over f).
  Notation tot2 := (total_over (fun a => (f a) ^ 2)).
  Definition at_ (l : list A) (i : nat) : R := match nth_error l i with Some a => f a | None => 0 end.
  Lemma sumR_first n (g : nat -> R) : sumR (S n) g = g 0%nat + sumR n (fun i => g (S i)).
  Proof. induction n as [|n IH]; [cbn; ring|]. cbn [sumR] in *. rewrite IH. ring. Qed.
  Lemma at_sum l : sumR (length l) (at_ l) = tot l.
  Proof. induction l as [|a l IH]; [reflexivity|]. cbn [length]. rewrite sumR_first. unfold total_over in *. cbn [map fold_right]. rewrite <- IH. reflexivity. Qed.
  Lemma at_sum2 l : sumR (length l) (fun i => (at_ l i) ^ 2) = tot2 l.
  Proof. induction l as [|a l IH]; [reflexivity|]. cbn [length]. rewrite sumR_first. unfold total_over in *. cbn [map fold_right]. rewrite <- IH. reflexivity. Qed.
  Lemma upd_tot l : forall i x, (i < length l)%nat -> exists l', upd l i x = Some l' /\ length l' = length l /\ tot l' = tot l + f x - at_ l i /\ tot2 l' = tot2 l + (f x) ^ 2 - (at_ l i) ^ 2.
  Proof.
    induction l as [|a l IH]; intros i x Hi; [cbn in Hi; lia|]. destruct i as [|i].
    - exists (x :: l). unfold total_over, at_. cbn [upd map fold_right length nth_error]. repeat split; auto; ring.
    - cbn in Hi. destruct (IH i x ltac:(lia)) as (l' & E & L & T1 & T2). exists (a :: l'). cbn [upd]. rewrite E. unfold total_over, at_ in *. cbn [map fold_right length nth_error]. rewrite L, T1, T2. repeat split; auto; ring.
  Qed.
  Lemma round_expect k s p0 res (g : list A -> R) (h : nat -> R) : length res = k -> (k <= S s)%nat ->
    (forall i res', (i < k)%nat -> upd res i p0 = Some res' -> g res' = h i) ->
    expect (reservoir_round k (S s) p0 res) g = (sumR k h + (INR (S s) - INR k) * g res) / INR (S s).
  Proof.
    intros L K H. unfold reservoir_round, gen_range. cbn [rnd_bind expect]. f_equal.
    replace (S s) with (k + (S s - k))%nat at 1 by lia. rewrite sumR_join. f_equal.
    - apply sumR_ext. intros i Hi. rewrite (proj2 (Nat.ltb_lt i k) Hi). destruct (upd_tot res i p0 ltac:(lia)) as (l' & E & _). rewrite E. cbn. now apply H.
    - rewrite (sumR_ext _ _ (fun _ => g res)).
      + rewrite sumR_const, minus_INR by lia. reflexivity.
      + intros i Hi. rewrite (proj2 (Nat.ltb_ge (k + i) k)) by lia. reflexivity.
  Qed.
  Lemma round_outcome k s (p0 : A) (res r : list A) : length res = k -> outcome (reservoir_round k s p0 res) (Some r) -> length r = k.
  Proof.
    intros L O. unfold reservoir_round, gen_range in O. cbn [rnd_bind] in O. inversion O as [|? ? i ? Hi O'| |]; subst. cbv beta in O'.
    destruct (i <? length res)%nat eqn:E; [|inversion O'; subst; reflexivity]. destruct (upd res i p0) as [l'|] eqn:U; cbn in O'; inversion O'; subst. exact (upd_length _ _ _ _ U).
  Qed.

  Lemma tot_cons (g : A -> R) a l : total_over g (a :: l) = g a + total_over g l.
  Proof. reflexivity. Qed.
  Lemma loop_mean k : forall (pool : list A) s (res : list A), length res = k -> (0 < k <= s)%nat ->
    INR (s + length pool) * expect (reservoir_loop k s pool res) tot = INR s * tot res + INR k * tot pool.
  Proof.
    induction pool as [|p pool IH]; intros s res L K.
    - cbn [reservoir_loop expect length]. rewrite Nat.add_0_r. unfold total_over at 3. cbn. ring.
    - cbn [reservoir_loop length]. rewrite expect_bind. set (N := INR (s + S (length pool))).
      assert (E : expect (reservoir_round k (S s) p res) (fun a => N * expect (reservoir_loop k (S s) pool a) tot) = INR s * tot res + INR k * tot (p :: pool)).
      { rewrite (expect_ext _ _ (fun a => INR (S s) * tot a + INR k * tot pool)).
        2: { intros a Ha. apply round_outcome in Ha; auto. rewrite <- (IH (S s) a Ha ltac:(lia)). unfold N. f_equal. f_equal. lia. }
        rewrite (round_expect k s p res _ (fun i => (INR (S s) * (tot res + f p) + INR k * tot pool) + - INR (S s) * at_ res i)); auto; try lia.
        - rewrite sumR_plus, sumR_const, sumR_scal. assert (AS : sumR k (at_ res) = tot res) by (rewrite <- L; apply at_sum). rewrite AS, tot_cons. rewrite S_INR. field. rewrite <- S_INR. apply not_0_INR. lia.
        - intros i res' Hi U. destruct (upd_tot res i p ltac:(lia)) as (l' & E & _ & T1 & _). rewrite U in E. injection E as <-. rewrite T1. ring. }
      rewrite expect_scal in E. exact E.
  Qed.
  Theorem sample_mean pool k : (0 < k <= length pool)%nat -> expect (reservoir_sample pool k) (fun r => tot r / INR k) = tot pool / INR (length pool).
  Proof.
    intros K. unfold reservoir_sample. rewrite (proj2 (Nat.leb_le k (length pool))) by lia.
    rewrite (expect_ext _ _ (fun r => / INR k * tot r)) by (intros; unfold Rdiv; ring). rewrite expect_scal.
    pose proof (loop_mean k (skipn k pool) k (firstn k pool) ltac:(rewrite firstn_length; lia) ltac:(lia)) as H.
    rewrite skipn_length in H. replace (k + (length pool - k))%nat with (length pool) in H by lia.
    assert (T : tot pool = tot (firstn k pool) + tot (skipn k pool)).
    { rewrite <- (firstn_skipn k pool) at 1. generalize (firstn k pool), (skipn k pool). intros a b. unfold total_over. induction a as [|x a IHa]; cbn; [ring|]. rewrite IHa. ring. }
    assert (N : INR (length pool) <> 0) by (apply not_0_INR; lia). assert (Kn : INR k <> 0) by (apply not_0_INR; lia).
    apply (Rmult_eq_reg_l (INR (length pool))); [|exact N]. replace (INR (length pool) * (/ INR k * expect (reservoir_loop k k (skipn k pool) (firstn k pool)) tot)) with (/ INR k * (INR (length pool) * expect (reservoir_loop k k (skipn k pool) (firstn k pool)) tot)) by ring.
    rewrite H, T. field. auto.
  Qed.

  (** The second moment, as a polynomial in the sums over the reservoir and over the rest of the pool. *)
  Definition moment (n s k S V A1 B1 : R) : R :=
    (s * (n - 1) - s * (s - 1)) * V + s * (s - 1) * S ^ 2 + 2 * s * (k - 1) * A1 * S + (k * (n - 1) * B1 + k * (k - 1) * (A1 ^ 2 - B1)).
  Lemma loop_square k : forall (pool : list A) s (res : list A), length res = k -> (0 < k <= s)%nat -> let n := INR (s + length pool) in
    n * (n - 1) * expect (reservoir_loop k s pool res) (fun r => (tot r) ^ 2) = moment n (INR s) (INR k) (tot res) (tot2 res) (tot pool) (tot2 pool).
  Proof.
    induction pool as [|p pool IH]; intros s res L K n.
    - subst n. cbn [reservoir_loop expect length]. rewrite Nat.add_0_r. unfold moment. change (total_over f []) with 0. change (total_over (fun a => f a ^ 2) []) with 0. ring.
    - cbn [reservoir_loop]. rewrite expect_bind.
      assert (E : expect (reservoir_round k (S s) p res) (fun a => n * (n - 1) * expect (reservoir_loop k (S s) pool a) (fun r => (tot r) ^ 2)) = moment n (INR s) (INR k) (tot res) (tot2 res) (tot (p :: pool)) (tot2 (p :: pool))).
      { rewrite (expect_ext _ _ (fun a => moment n (INR (S s)) (INR k) (tot a) (tot2 a) (tot pool) (tot2 pool))).
        2: { intros a Ha. apply round_outcome in Ha; auto. pose proof (IH (S s) a Ha ltac:(lia)) as H. cbn zeta in H. replace (INR (S s + length pool)) with n in H by (unfold n; f_equal; cbn; lia). exact H. }
        set (a0 := f p). set (s1 := INR (S s)). set (A1 := tot pool). set (B1 := tot2 pool).
        set (P := s1 * (n - 1) - s1 * (s1 - 1)). set (Q := s1 * (s1 - 1)). set (Rr := 2 * s1 * (INR k - 1) * A1). set (C := INR k * (n - 1) * B1 + INR k * (INR k - 1) * (A1 ^ 2 - B1)). set (u := tot res + a0).
        rewrite (round_expect k s p res _ (fun i => (P * (tot2 res + a0 ^ 2) + Q * u ^ 2 + Rr * u + C) + ((- (2 * Q * u) - Rr) * at_ res i + (Q - P) * (at_ res i) ^ 2))); auto; try lia.
        - rewrite sumR_plus, sumR_const, sumR_plus, !sumR_scal. assert (AS : sumR k (at_ res) = tot res) by (rewrite <- L; apply at_sum).
          assert (AS2 : sumR k (fun i => at_ res i ^ 2) = tot2 res) by (rewrite <- L; apply at_sum2). rewrite AS, AS2, !tot_cons. fold A1 B1 s1.
          assert (Es : INR s = s1 - 1) by (unfold s1; rewrite S_INR; ring). rewrite Es. unfold moment, u, C, Rr, Q, P, a0. field. unfold s1. apply not_0_INR. lia.
        - intros i res' Hi U. destruct (upd_tot res i p ltac:(lia)) as (l' & E & _ & T1 & T2). rewrite U in E. injection E as <-. rewrite T1, T2. unfold moment, u, C, Rr, Q, P, a0. ring. }
      rewrite expect_scal in E. exact E.
  Qed.
  Lemma tot_app (g : A -> R) a b : total_over g (a ++ b) = total_over g a + total_over g b.
  Proof. unfold total_over. induction a as [|x a IHa]; cbn; [ring|]. rewrite IHa. ring. Qed.
  Theorem sample_variance pool k : (0 < k <= length pool)%nat -> (1 < length pool)%nat ->
    let n := INR (length pool) in let mu := tot pool / n in
    expect (reservoir_sample pool k) (fun r => (tot r / INR k - mu) ^ 2) =
    total_over (fun a => (f a - mu) ^ 2) pool / n / INR k * ((n - INR k) / (n - 1)).
  Proof.
    intros K N1 n mu. pose proof (sample_mean pool k K) as M. fold n in M. fold mu in M.
    assert (N : n <> 0) by (apply not_0_INR; lia). assert (Kn : INR k <> 0) by (apply not_0_INR; lia).
    assert (N' : n - 1 <> 0) by (unfold n; assert (1 < INR (length pool)) by (apply (lt_INR 1); lia); lra).
    assert (TV : total_over (fun a => (f a - mu) ^ 2) pool = tot2 pool - n * mu ^ 2).
    { replace (n * mu ^ 2) with (2 * mu * tot pool - n * mu ^ 2) by (unfold mu; field; exact N). unfold n. clear. generalize mu. intros m. induction pool as [|a l IH]; [cbn; ring|]. rewrite !tot_cons, IH. cbn [length]. rewrite S_INR. ring. }
    assert (M2 : n * (n - 1) * expect (reservoir_sample pool k) (fun r => (tot r) ^ 2) = INR k * (n - 1) * tot2 pool + INR k * (INR k - 1) * ((tot pool) ^ 2 - tot2 pool)).
    { unfold reservoir_sample. rewrite (proj2 (Nat.leb_le k (length pool))) by lia.
      pose proof (loop_square k (skipn k pool) k (firstn k pool) ltac:(rewrite firstn_length; lia) ltac:(lia)) as H. cbn zeta in H.
      rewrite skipn_length in H. replace (k + (length pool - k))%nat with (length pool) in H by lia. fold n in H. rewrite H. unfold moment.
      assert (SP : forall g : A -> R, total_over g pool = total_over g (firstn k pool) + total_over g (skipn k pool)) by (intros g; rewrite <- tot_app, firstn_skipn; reflexivity). rewrite (SP f), (SP (fun a => f a ^ 2)). ring. }
    assert (NP : ~ outcome (reservoir_sample pool k) None).
    { intros O. apply reservoir_sample_outcome in O. destruct O as [[O _]|(_ & r & rest & O & _)]; [lia|discriminate]. }
    rewrite (expect_ext _ _ (fun r => (/ INR k) ^ 2 * (tot r) ^ 2 + (- (2 * mu) * (tot r / INR k) + mu ^ 2))) by (intros a _; unfold Rdiv; ring).
    rewrite expect_plus, expect_plus, !expect_scal, M, expect_const by exact NP. rewrite TV.
    clear M. set (E2 := expect _ _) in *. assert (E2v : E2 = (INR k * (n - 1) * tot2 pool + INR k * (INR k - 1) * ((tot pool) ^ 2 - tot2 pool)) / (n * (n - 1))) by (rewrite <- M2; field; auto).
    rewrite E2v. unfold mu. field. auto.
  Qed.
End Sampling.
Lemma sample_ex : total_over (fun a => a) [1; 2; 6] / 3 = 3 /\ total_over (fun a => (a - 3) ^ 2) [1; 2; 6] / 3 / 2 * ((3 - 2) / (3 - 1)) = 7 / 6.
Proof. unfold total_over. cbn. split; lra. Qed.
