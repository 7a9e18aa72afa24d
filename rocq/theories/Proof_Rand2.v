(** Reservoir sampling: every subset of the requested size is equally likely. *)
From Coq Require Import List Arith Lia Bool Reals Lra Permutation Binomial.
From Verif Require Import Base BaseLemmas Model_Rand Proof_Rand.
Import ListNotations.
Local Open Scope R_scope.

Section Reservoir.
  Context {A : Type} (eqd : forall x y : A, {x = y} + {x <> y}).
  Notation mem := (memb eqd).
  Definition covers (T r : list A) : bool := forallb (fun x => mem x r) T.
  Lemma mem_iff x l : mem x l = true <-> In x l.
  Proof. unfold memb. destruct in_dec; split; auto; discriminate. Qed.
  Lemma covers_iff T r : covers T r = true <-> incl T r.
  Proof. unfold covers. rewrite forallb_forall. unfold incl. split; intros H x Hx; apply mem_iff || apply (mem_iff x r); auto. Qed.

  Lemma loop_incl k : forall (q : list A) m res r, outcome (reservoir_loop k m q res) (Some r) -> incl r (res ++ q).
  Proof.
    induction q as [|p q IH]; intros m res r H; cbn [reservoir_loop] in H.
    - inversion H; subst. rewrite app_nil_r. apply incl_refl.
    - unfold reservoir_round, gen_range in H. cbn [rnd_bind] in H. inversion H as [|? ? i ? Hi Ho| |]; subst. clear H.
      destruct (Nat.ltb_spec i k) as [Hk|Hk].
      + destruct (upd res i p) as [res'|] eqn:U; cbn in Ho; [|inversion Ho]. apply IH in Ho. intros x Hx. specialize (Ho x Hx).
        destruct (upd_perm _ _ _ _ U) as (y & l0 & P1 & P2 & _). apply in_app_or in Ho. apply in_or_app. destruct Ho as [Ho|Ho]; [|right; right; auto].
        apply (Permutation_in _ P2) in Ho. destruct Ho as [->|Ho]; [right; left; auto|]. left. apply (Permutation_in _ (Permutation_sym P1)). right. auto.
      + cbn in Ho. apply IH in Ho. intros x Hx. specialize (Ho x Hx). apply in_app_or in Ho. apply in_or_app. destruct Ho; [left|right; right]; auto.
  Qed.
  Lemma loop_zero k m (q res T : list A) x : In x T -> ~ In x (res ++ q) -> expect (reservoir_loop k m q res) (fun r => ind (covers T r)) = 0.
  Proof.
    intros HT HN. apply expect_zero. intros r Hr. destruct (covers T r) eqn:E; [|reflexivity]. exfalso. apply covers_iff in E. apply HN. apply (loop_incl _ _ _ _ _ Hr). auto.
  Qed.
  Lemma loop_step k m (p : A) q res f : expect (reservoir_loop k m (p :: q) res) f =
    sumR (S m) (fun r => expect (if (r <? k)%nat then rnd_bind (rnd_opt (upd res r p)) (fun res' => reservoir_loop k (S m) q res') else reservoir_loop k (S m) q res) f) / INR (S m).
  Proof.
    cbn [reservoir_loop]. unfold reservoir_round, gen_range. cbn [rnd_bind expect]. f_equal. apply sumR_ext. intros i Hi. destruct (i <? k)%nat; reflexivity.
  Qed.
  Lemma count_sum (b : A -> bool) (res : list A) d0 : sumR (length res) (fun r => ind (b (nth r res d0))) = INR (length (filter b res)).
  Proof.
    induction res as [|x l IH] using rev_ind; [reflexivity|]. rewrite app_length, filter_app, app_length. cbn [length]. rewrite Nat.add_1_r. cbn [sumR].
    rewrite (sumR_ext _ _ (fun r => ind (b (nth r l d0)))) by (intros i Hi; rewrite app_nth1 by auto; reflexivity). rewrite IH, app_nth2, Nat.sub_diag by lia. cbn [nth filter].
    destruct (b x); cbn [ind length]; rewrite plus_INR; cbn; lra.
  Qed.
  Lemma sumR_tail k n (c : nat -> R) (d : R) : (k <= n)%nat -> sumR n (fun i => if (i <? k)%nat then c i else d) = sumR k c + INR (n - k) * d.
  Proof.
    intros Hn. replace n with (k + (n - k))%nat at 1 by lia. induction (n - k)%nat as [|q IHq].
    - rewrite Nat.add_0_r. simpl. rewrite Rmult_0_l, Rplus_0_r. apply sumR_ext. intros i Hi. destruct (Nat.ltb_spec i k); [auto|lia].
    - rewrite Nat.add_succ_r. cbn [sumR]. rewrite IHq, S_INR. destruct (Nat.ltb_spec (k + q) k); [lia|]. lra.
  Qed.

  Definition V (k m s n : nat) : R := INR (fact (n - k)) / INR (fact (m - s)) * INR (fact (k - s)) * INR (fact m) / INR (fact n).
  Definition hits (T res : list A) : nat := length (filter (fun x => mem x T) res).

  Lemma filter_len_le (b : A -> bool) l : (length (filter b l) <= length l)%nat.
  Proof. induction l as [|x l IH]; cbn; [lia|]. destruct (b x); cbn; lia. Qed.
  Lemma perm_filter (b : A -> bool) l l' : Permutation l l' -> length (filter b l) = length (filter b l').
  Proof. induction 1; cbn; auto; [destruct (b x); cbn; lia|destruct (b x), (b y); cbn; lia|lia]. Qed.
  Lemma hits_room T res p : NoDup res -> NoDup T -> In p T -> ~ In p res -> (hits T res < length T)%nat.
  Proof.
    intros NR NT HT HN. unfold hits. change (length (p :: filter (fun x => mem x T) res) <= length T)%nat. apply NoDup_incl_length.
    - constructor; [|apply NoDup_filter; auto]. intros H. apply filter_In in H. tauto.
    - intros x [<-|H]; auto. apply filter_In in H. apply mem_iff. tauto.
  Qed.
  Lemma hits_all T res : NoDup T -> incl T res -> length res = length T -> hits T res = length T.
  Proof.
    intros NT HI E. unfold hits. apply Nat.le_antisymm; [rewrite <- E; apply filter_len_le|].
    apply NoDup_incl_length; auto. intros x Hx. apply filter_In. split; [auto|]. apply mem_iff; auto.
  Qed.

  Lemma fact_nz n : INR (fact n) <> 0.
  Proof. apply INR_fact_neq_0. Qed.
  Lemma fact_S n : INR (fact (S n)) = INR (S n) * INR (fact n).
  Proof. rewrite <- mult_INR. f_equal. Qed.

  Lemma loop_uniform k (T : list A) : NoDup T -> length T = k -> forall q m res, (k <= m)%nat -> length res = k -> NoDup (res ++ q) -> incl T (res ++ q) ->
    expect (reservoir_loop k m q res) (fun r => ind (covers T r)) = V k m (hits T res) (m + length q).
  Proof.
    intros NT LT. induction q as [|p q IH]; intros m res Hm Lr ND HI.
    - cbn [reservoir_loop expect length]. rewrite app_nil_r in *. rewrite Nat.add_0_r. rewrite (proj2 (covers_iff T res)) by auto. rewrite hits_all by (auto; lia). rewrite LT. cbn [ind].
      unfold V. rewrite Nat.sub_diag. cbn [fact INR]. field. split; apply fact_nz.
    - rewrite loop_step. set (s := hits T res).
      assert (Np : ~ In p res). { apply NoDup_remove_2 in ND. intros H. apply ND. apply in_or_app. auto. }
      assert (Nq : ~ In p (res ++ q)) by (apply NoDup_remove_2 in ND; auto).
      assert (NDr : NoDup res) by (eapply NoDup_app_l; eauto).
      assert (NDq : NoDup (res ++ q)) by (eapply NoDup_remove_1; eauto).
      assert (Hs : (s <= k)%nat) by (unfold s, hits; rewrite <- Lr; apply filter_len_le).
      assert (exists d0 : A, True) as (d0 & _) by (exists p; exact I).
      assert (HU : forall r, (r < k)%nat -> exists res', upd res r p = Some res' /\ length res' = k /\
        exists l0, Permutation res (nth r res d0 :: l0) /\ Permutation res' (p :: l0)).
      { intros r Hr. destruct (upd_Some res r p ltac:(lia)) as (l1 & y & l2 & E & L1 & U). exists (l1 ++ p :: l2). split; [exact U|]. split; [rewrite <- Lr, E, !app_length; reflexivity|].
        exists (l1 ++ l2). rewrite E at 2. rewrite app_nth2, L1, Nat.sub_diag by lia. cbn [nth]. rewrite E. split; symmetry; apply Permutation_middle. }
      set (b := fun x => mem x T). set (n := (S m + length q)%nat).
      assert (ES : sumR k (fun r => ind (b (nth r res d0))) = INR s) by (rewrite <- Lr; apply count_sum).
      destruct (in_dec eqd p T) as [HpT|HpT].
      + (* the new element is wanted *)
        assert (Hsk : (s < k)%nat) by (rewrite <- LT; apply (hits_room T res p); auto).
        rewrite (sumR_ext _ _ (fun r => if (r <? k)%nat then (fun r => (1 - ind (b (nth r res d0))) * V k (S m) (S s) n) r else 0)).
        2:{ intros r Hr. destruct (Nat.ltb_spec r k) as [Hrk|Hrk]; [|apply (loop_zero k (S m) q res T p); auto].
            destruct (HU r Hrk) as (res' & U & L' & l0 & P1 & P2). rewrite U. cbn [rnd_opt rnd_bind]. set (y := nth r res d0) in *.
            assert (ND' : NoDup ((y :: l0) ++ p :: q)) by (eapply Permutation_NoDup; [apply Permutation_app_tail; exact P1|exact ND]).
            destruct (b y) eqn:By.
            - cbn [ind]. rewrite (loop_zero k (S m) q res' T y); [ring|apply mem_iff; exact By|].
              intros H. cbn [app] in ND'. inversion ND' as [|? ? N1 N2]; subst. apply N1. apply in_app_or in H. apply in_or_app. destruct H as [H|H]; [|right; right; auto].
              apply (Permutation_in _ P2) in H. destruct H as [->|H]; [right; left; auto|left; auto].
            - cbn [ind]. rewrite IH; auto; try lia.
              + rewrite Rminus_0_r, Rmult_1_l. unfold n. f_equal. unfold hits. rewrite (perm_filter _ _ _ P2). cbn [filter]. rewrite (proj2 (mem_iff p T)) by auto. cbn [length]. f_equal.
                unfold s, hits. rewrite (perm_filter _ _ _ P1). cbn [filter]. fold (b y). rewrite By. reflexivity.
              + eapply Permutation_NoDup; [apply Permutation_app_tail; symmetry; exact P2|]. cbn [app] in *. inversion ND' as [|? ? N1 N2]; subst. constructor; [|eapply NoDup_remove_1; eauto].
                apply NoDup_remove_2 in N2. auto.
              + intros x Hx. specialize (HI x Hx). apply in_app_or in HI. apply in_or_app. destruct HI as [H|[<-|H]]; [|left; apply (Permutation_in _ (Permutation_sym P2)); left; auto|right; auto].
                apply (Permutation_in _ P1) in H. destruct H as [H|H]; [|left; apply (Permutation_in _ (Permutation_sym P2)); right; auto].
                exfalso. rewrite <- H in Hx. apply (mem_iff y T) in Hx. unfold b in By. congruence. }
        rewrite sumR_tail by lia. rewrite Rmult_0_r, Rplus_0_r.
        assert (EC : sumR k (fun r => (1 - ind (b (nth r res d0))) * V k (S m) (S s) n) = INR (k - s) * V k (S m) (S s) n).
        { rewrite (sumR_ext k _ (fun r => V k (S m) (S s) n * 1 + (- V k (S m) (S s) n) * ind (b (nth r res d0)))) by (intros; ring).
          rewrite sumR_plus, !sumR_scal, sumR_const. rewrite ES. rewrite minus_INR by lia. ring. }
        rewrite EC. cbn [length]. rewrite Nat.add_succ_r. fold n. change (S (m + length q)) with n. unfold V. change (S m - S s)%nat with (m - s)%nat.
        replace (k - s)%nat with (S (k - S s)) by lia. rewrite !fact_S. field.
        repeat split; try apply fact_nz; try (apply not_0_INR; lia).
      + rewrite (sumR_ext _ _ (fun r => if (r <? k)%nat then (fun r => (1 - ind (b (nth r res d0))) * V k (S m) s n) r else V k (S m) s n)).
        2:{ assert (HIr : incl T (res ++ q)).
            { intros x Hx. specialize (HI x Hx). apply in_app_or in HI. apply in_or_app. destruct HI as [H|[<-|H]]; auto. contradiction. }
            intros r Hr. destruct (Nat.ltb_spec r k) as [Hrk|Hrk].
            2:{ rewrite IH; auto; lia. }
            destruct (HU r Hrk) as (res' & U & L' & l0 & P1 & P2). rewrite U. cbn [rnd_opt rnd_bind]. set (y := nth r res d0) in *.
            assert (ND' : NoDup ((y :: l0) ++ p :: q)) by (eapply Permutation_NoDup; [apply Permutation_app_tail; exact P1|exact ND]).
            destruct (b y) eqn:By.
            - cbn [ind]. rewrite (loop_zero k (S m) q res' T y); [ring|apply mem_iff; exact By|].
              intros H. cbn [app] in ND'. inversion ND' as [|? ? N1 N2]; subst. apply N1. apply in_app_or in H. apply in_or_app. destruct H as [H|H]; [|right; right; auto].
              apply (Permutation_in _ P2) in H. destruct H as [->|H]; [right; left; auto|left; auto].
            - cbn [ind]. rewrite IH; auto; try lia.
              + rewrite Rminus_0_r, Rmult_1_l. unfold n. f_equal. unfold hits. rewrite (perm_filter _ _ _ P2). cbn [filter]. unfold memb at 1. destruct in_dec; [contradiction|].
                unfold s, hits. rewrite (perm_filter _ _ _ P1). cbn [filter]. fold (b y). rewrite By. reflexivity.
              + eapply Permutation_NoDup; [apply Permutation_app_tail; symmetry; exact P2|]. cbn [app] in *. inversion ND' as [|? ? N1 N2]; subst. constructor; [|eapply NoDup_remove_1; eauto].
                apply NoDup_remove_2 in N2. auto.
              + intros x Hx. specialize (HIr x Hx). apply in_app_or in HIr. apply in_or_app. destruct HIr as [H|H]; [|right; auto].
                apply (Permutation_in _ P1) in H. destruct H as [H|H]; [|left; apply (Permutation_in _ (Permutation_sym P2)); right; auto].
                exfalso. rewrite <- H in Hx. apply (mem_iff y T) in Hx. unfold b in By. congruence. }
        rewrite sumR_tail by lia.
        assert (EC : sumR k (fun r => (1 - ind (b (nth r res d0))) * V k (S m) s n) = INR (k - s) * V k (S m) s n).
        { rewrite (sumR_ext k _ (fun r => V k (S m) s n * 1 + (- V k (S m) s n) * ind (b (nth r res d0)))) by (intros; ring).
          rewrite sumR_plus, !sumR_scal, sumR_const. rewrite ES. rewrite minus_INR by lia. ring. }
        rewrite EC. cbn [length]. rewrite Nat.add_succ_r. change (S (m + length q)) with n.
        replace (INR (k - s) * V k (S m) s n + INR (S m - k) * V k (S m) s n) with (INR (S m - s) * V k (S m) s n).
        2:{ replace (S m - s)%nat with ((k - s) + (S m - k))%nat by lia. rewrite plus_INR. ring. }
        unfold V. replace (S m - s)%nat with (S (m - s)) by lia. rewrite !fact_S. field.
        repeat split; try apply fact_nz; try (apply not_0_INR; lia).
  Qed.

  Theorem sample_subset_uniform (pool T : list A) : NoDup pool -> NoDup T -> incl T pool ->
    prob (reservoir_sample pool (length T)) (covers T) = / C (length pool) (length T).
  Proof.
    intros NP NT HI. assert (Hle : (length T <= length pool)%nat) by (apply NoDup_incl_length; auto).
    unfold prob, reservoir_sample. destruct (Nat.leb_spec (length T) (length pool)) as [_|]; [|lia]. set (k := length T) in *.
    rewrite (loop_uniform k T NT eq_refl); rewrite ?firstn_skipn; auto; [|rewrite firstn_length; lia].
    rewrite skipn_length. replace (k + (length pool - k))%nat with (length pool) by lia.
    unfold V, C. field. repeat split; apply fact_nz.
  Qed.
End Reservoir.
