(** Lemmas for [Props_Optim]. *)
From Coq Require Import List Arith Lia Bool Reals Lra Permutation.
From Verif Require Import Base BaseLemmas Num Linalg LinalgR Euclid Model_Rand Proof_Rand Model_Optim Spec_Optim.
Import ListNotations.

Section Gen.
  Context {F : Type} {N : Num F}.

  Lemma rvsub_Ok (a b c : list F) : rvsub a b = Ok c -> length a = length b /\ c = vsub a b.
  Proof. unfold rvsub, rassert. destruct (Nat.eqb_spec (length a) (length b)); [|discriminate]. intros H. injection H as <-. auto. Qed.
  Lemma rvadd_Ok (a b c : list F) : rvadd a b = Ok c -> length a = length b /\ c = vadd a b.
  Proof. unfold rvadd, rassert. destruct (Nat.eqb_spec (length a) (length b)); [|discriminate]. intros H. injection H as <-. auto. Qed.
  Lemma vscale_length c (v : list F) : length (vscale c v) = length v.
  Proof. apply map_length. Qed.
  Lemma at_vsub (a b : list F) j : j < length a -> length a = length b -> at_ (vsub a b) j = nsub (at_ a j) (at_ b j).
  Proof. intros H E. apply map2_nth; lia. Qed.
  Lemma at_vadd (a b : list F) j : j < length a -> length a = length b -> at_ (vadd a b) j = nadd (at_ a j) (at_ b j).
  Proof. intros H E. apply map2_nth; lia. Qed.
  Lemma at_vscale c (a : list F) j : j < length a -> at_ (vscale c a) j = nmul (at_ a j) c.
  Proof. intros H. unfold at_, vscale. apply nth_map with (f := fun x => nmul x c); auto. Qed.
  Lemma at_map2 (f : F -> F -> F) (a b : list F) j : j < length a -> length a = length b -> at_ (map2 f a b) j = f (at_ a j) (at_ b j).
  Proof. intros H E. apply map2_nth; lia. Qed.
  Lemma at_map (f : F -> F) (a : list F) j : j < length a -> at_ (map f a) j = f (at_ a j).
  Proof. intros H. apply nth_map; auto. Qed.
  Lemma vsub_len (a b : list F) : length a = length b -> length (vsub a b) = length a.
  Proof. intros E. unfold vsub. rewrite map2_length. lia. Qed.
  Lemma vadd_len (a b : list F) : length a = length b -> length (vadd a b) = length a.
  Proof. intros E. unfold vadd. rewrite map2_length. lia. Qed.

  Lemma gd_loop_spec alpha cg : forall n x prev w, gd_loop alpha cg n x prev = Ok w ->
    exists xs cs, length xs = length cs /\ length cs <= n /\ nth 0 (xs ++ [w]) [] = x /\
      (forall i, i < length cs -> exists g, cg (nth i xs []) = Ok (nth i cs nzero, g) /\
         gd_next alpha (nth i xs []) g (nth (S i) (xs ++ [w]) []) /\
         nltb (nabs (nsub (match i with O => prev | S i' => nth i' cs nzero end) (nth i cs nzero))) learning_eps = false) /\
      (length cs = n \/ exists c g, cg w = Ok (c, g) /\
         nltb (nabs (nsub (match length cs with O => prev | S i' => nth i' cs nzero end) c)) learning_eps = true).
  Proof.
    induction n as [|n IH]; intros x prev w H.
    - cbn in H. injection H as <-. exists [], []. cbn. repeat split; auto. intros; lia.
    - cbn [gd_loop] in H. apply rbind_Ok_inv in H. destruct H as ((c & g) & Hc & H).
      destruct (nltb (nabs (nsub prev c)) learning_eps) eqn:E.
      + injection H as <-. exists [], []. cbn. repeat split; auto; try lia. right. exists c, g. auto.
      + apply rbind_Ok_inv in H. destruct H as (x1 & Hx & H). apply rvsub_Ok in Hx. destruct Hx as (Hl & ->).
        rewrite vscale_length in Hl.
        destruct (IH _ _ _ H) as (xs & cs & H1 & H2 & H3 & H4 & H5).
        exists (x :: xs), (c :: cs). cbn [length]. split; [lia|]. split; [lia|]. split; [reflexivity|]. split.
        * intros i Hi. destruct i as [|i].
          -- exists g. cbn [nth app]. split; [exact Hc|]. split; [|exact E].
             change (nth 1 (x :: xs ++ [w]) []) with (nth 0 (xs ++ [w]) []). rewrite H3. split; [auto|].
             rewrite vsub_len by (rewrite vscale_length; auto). split; [reflexivity|]. intros j Hj.
             rewrite at_vsub, at_vscale by (rewrite ?vscale_length; lia). reflexivity.
          -- destruct (H4 i) as (g' & K1 & K2 & K3); [lia|]. exists g'. cbn [nth app]. split; [exact K1|]. split; [exact K2|].
             destruct i as [|i]; exact K3.
        * destruct H5 as [H5|(c' & g' & K1 & K2)]; [left; lia|]. right. exists c', g'. split; [exact K1|].
          destruct (length cs); exact K2.
  Qed.

  (** Stochastic optimisers. *)
  Lemma outcome_res {A} (r : res A) a : outcome (rnd_res r) (Some a) -> r = Ok a.
  Proof. destruct r; cbn; intros H; inversion H; reflexivity. Qed.

  Section Stoch.
    Variable cg : list F -> matrix F -> matrix F -> res (F * list F).
    Variable step : ostate F -> list F -> res (ostate F).
    Variable next : list F -> list F -> list F -> list F -> list F -> Prop.
    Variables inputs targets : matrix F.
    Hypothesis step_next : forall w a g w' a', length a = length w -> step (w, a) g = Ok (w', a') ->
      length g = length w /\ next w a g w' a' /\ length w' = length w /\ length a' = length w.

    Lemma one_row_Ok (m : matrix F) i r : one_row m i = Ok r -> exists x, nth_error (mrows m) i = Some x /\ r = Mat [x] (mcols m).
    Proof. unfold one_row, ridx. destruct (nth_error (mrows m) i) as [x|]; cbn; [|discriminate]. intros H. injection H as <-. eauto. Qed.

    Lemma pass_sweep : forall order w a c w' a' c', length a = length w ->
      stoch_pass cg step inputs targets order (w, a) c = Ok ((w', a'), c') ->
      sweep cg next inputs targets order w a c w' a' c' /\ length w' = length w /\ length a' = length w.
    Proof.
      induction order as [|i order IH]; intros w a c w' a' c' L H.
      - cbn in H. injection H as <- <- <-. repeat split; auto. constructor.
      - cbn [stoch_pass] in H. apply rbind_Ok_inv in H. destruct H as (xi & Hx & H).
        apply rbind_Ok_inv in H. destruct H as (ti & Ht & H).
        apply rbind_Ok_inv in H. destruct H as ((ci & g) & Hc & H).
        apply rbind_Ok_inv in H. destruct H as ((w1 & a1) & Hs & H).
        apply one_row_Ok in Hx. destruct Hx as (x & Hx & ->). apply one_row_Ok in Ht. destruct Ht as (t & Ht & ->).
        destruct (step_next _ _ _ _ _ L Hs) as (K1 & K2 & K3 & K4).
        destruct (IH w1 a1 _ _ _ _ ltac:(lia) H) as (K5 & K6 & K7). split; [|lia].
        eapply sweep_sample; eauto.
    Qed.

    Lemma loop_epochs : forall n perm w a prev v, length a = length w ->
      outcome (stoch_loop cg step inputs targets n perm (w, a) prev) (Some v) ->
      exists orders, Forall (Permutation perm) orders /\ length orders <= n /\
        epochs cg next inputs targets learning_eps n prev w a orders v /\ length v = length w.
    Proof.
      induction n as [|n IH]; intros perm w a prev v L H.
      - cbn in H. inversion H; subst. exists []. repeat split; auto. constructor.
      - cbn [stoch_loop] in H. apply outcome_bind in H. destruct H as [(p & Hp & H)|(E & _)]; [|discriminate E].
        destruct (in_place_perm _ _ Hp) as (t & Et & Pt). injection Et as <-.
        apply outcome_bind in H. destruct H as [(((w1 & a1) & c1) & Hr & H)|(E & _)]; [|discriminate E].
        apply outcome_res in Hr. destruct (pass_sweep _ _ _ _ _ _ _ L Hr) as (S1 & L1 & L2).
        cbn [fst snd] in H.
        match type of H with context [if ?b then _ else _] => destruct b eqn:E end.
        + inversion H; subst. exists [p]. repeat split; auto; [cbn; lia|]. eapply epochs_stop; eauto.
        + destruct (IH p w1 a1 _ _ ltac:(lia) H) as (orders & K1 & K2 & K3 & K4).
          exists (p :: orders). split; [|split; [cbn; lia|split; [eapply epochs_go; eauto|lia]]].
          constructor; [exact Pt|]. eapply Forall_impl; [|exact K1]. intros q Q. eapply Permutation_trans; eauto.
    Qed.

    Theorem optimize_epochs iters start v :
      outcome (stoch_optimize cg step inputs targets iters start) (Some v) ->
      exists orders, Forall (Permutation (seq 0 (nrows inputs))) orders /\ length orders <= iters /\
        epochs cg next inputs targets learning_eps iters nzero start (repeat nzero (length start)) orders v /\ length v = length start.
    Proof. intros H. apply loop_epochs in H; [exact H|]. apply repeat_length. Qed.
  End Stoch.

  Lemma sgd_step_next self w a g w' a' : length a = length w -> sgd_step self (w, a) g = Ok (w', a') ->
    length g = length w /\ sgd_next (sgd_alpha self) (sgd_mu self) w a g w' a' /\ length w' = length w /\ length a' = length w.
  Proof.
    intros L H. unfold sgd_step in H.
    apply rbind_Ok_inv in H. destruct H as (d & Hd & H). apply rvadd_Ok in Hd. destruct Hd as (Ed & ->).
    apply rbind_Ok_inv in H. destruct H as (e & He & H). apply rvadd_Ok in He. destruct He as (Ee & ->).
    apply rbind_Ok_inv in H. destruct H as (f & Hf & H). apply rvsub_Ok in Hf. destruct Hf as (Ef & ->).
    injection H as <- <-.
    assert (Lg : length g = length w) by (rewrite !vscale_length in Ed; lia).
    assert (La : length (vadd (vscale (sgd_mu self) g) (vscale (sgd_alpha self) a)) = length w)
      by (rewrite vadd_len; rewrite ?vscale_length; lia).
    assert (Lw : length (vsub w (vadd (vscale (nopp (sgd_alpha self)) a)
              (vscale (nadd nonev (sgd_alpha self)) (vadd (vscale (sgd_mu self) g) (vscale (sgd_alpha self) a))))) = length w)
      by (rewrite vsub_len; auto).
    split; [exact Lg|]. split; [|auto]. split; [exact La|]. split; [exact Lw|]. intros j Hj. split.
    - rewrite at_vadd, !at_vscale by (rewrite ?vscale_length; lia). reflexivity.
    - rewrite at_vsub by (auto; lia).
      rewrite at_vadd by (rewrite ?vscale_length; lia).
      rewrite (at_vscale (nopp (sgd_alpha self))) by lia.
      rewrite (at_vscale (nadd nonev (sgd_alpha self))) by (rewrite La; lia).
      reflexivity.
  Qed.

  Lemma ada_step_next self w a g w' a' : length a = length w -> ada_step self (w, a) g = Ok (w', a') ->
    length g = length w /\ ada_next (ada_alpha self) (ada_tau self) w a g w' a' /\ length w' = length w /\ length a' = length w.
  Proof.
    intros L H. unfold ada_step, rassert in H. destruct (Nat.eqb_spec (length a) (length g)) as [Lg|]; [|discriminate].
    apply rbind_Ok_inv in H. destruct H as (f & Hf & H). apply rvsub_Ok in Hf. destruct Hf as (Ef & ->).
    injection H as <- <-.
    assert (La : length (map2 (fun x y => nadd x (nmul y y)) a g) = length w) by (rewrite map2_length; lia).
    split; [lia|]. rewrite vsub_len by auto. split; [|auto]. split; [auto|]. split; [rewrite vsub_len by auto; auto|].
    intros j Hj. split.
    - rewrite at_map2 by lia. reflexivity.
    - rewrite at_vsub by (auto; lia). rewrite at_map2 by lia. reflexivity.
  Qed.

  Lemma rms_step_next self w a g w' a' : length a = length w -> rms_step self (w, a) g = Ok (w', a') ->
    length g = length w /\ rms_next (rms_rate self) (rms_decay self) (rms_epsilon self) w a g w' a' /\ length w' = length w /\ length a' = length w.
  Proof.
    intros L H. unfold rms_step in H.
    apply rbind_Ok_inv in H. destruct H as (c & Hc & H). apply rvadd_Ok in Hc. destruct Hc as (Ec & ->).
    rewrite !vscale_length, map_length in Ec.
    apply rbind_Ok_inv in H. destruct H as (f & Hf & H). apply rvsub_Ok in Hf. destruct Hf as (Ef & ->).
    injection H as <- <-.
    match goal with |- context [rms_next _ _ _ _ _ _ _ ?c] => assert (La : length c = length w) end.
    { rewrite vadd_len; rewrite ?vscale_length, ?map_length; lia. }
    split; [lia|]. rewrite vsub_len by auto. split; [|auto]. split; [auto|]. split; [rewrite vsub_len by auto; auto|].
    intros j Hj. split.
    - rewrite at_vadd by (rewrite ?vscale_length, ?map_length; lia). rewrite !at_vscale by (rewrite ?map_length; lia).
      rewrite (at_map (fun x => nmul x x)) by lia. reflexivity.
    - rewrite at_vsub by (auto; lia). rewrite at_map2 by lia. reflexivity.
  Qed.
End Gen.
