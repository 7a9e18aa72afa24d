(** When k-means++ returns an error value (any arithmetic). *)
From Coq Require Import List Arith Lia Bool Reals.
From Verif Require Import Base BaseLemmas Num NumX Linalg Model_KMeans.
Import ListNotations.

Section KPPErr.
  Context {F : Type} {N : Num F}.
  Lemma argbest_in better (l : list F) : forall i bi bv, snd (argbest better l i bi bv) = bv \/ In (snd (argbest better l i bi bv)) l.
  Proof.
    induction l as [|x l IH]; intros i bi bv; cbn [argbest]; [now left|]. destruct (better x bv).
    - destruct (IH (S i) i x) as [->|H]; [right; now left|right; now right].
    - destruct (IH (S i) bi bv) as [->|H]; [now left|right; now right].
  Qed.
  Lemma rmap_res {A B} (f : A -> res B) l : (forall a e, In a l -> f a <> Err e) ->
    rmap f l = Panic \/ exists bs, rmap f l = Ok bs /\ forall b, In b bs -> exists a, In a l /\ f a = Ok b.
  Proof.
    induction l as [|a l IH]; intros H; cbn [rmap]; [right; exists []; split; [reflexivity|intros b []]|].
    destruct (f a) as [b|e|] eqn:E; cbn [rbind]; [|now apply H in E; [|now left]|now left].
    destruct IH as [->|(bs & -> & Hb)]; [intros; apply H; now right|now left|]. right. exists (b :: bs). split; [reflexivity|].
    intros c [<-|Hc]; [exists a; split; [now left|exact E]|]. destruct (Hb c Hc) as (a' & ? & ?). exists a'. split; [now right|assumption].
  Qed.
  Lemma sample_no_err (l : list F) : forall rand i t e, sample_loop rand i t l <> Err e.
  Proof. induction l as [|p l IH]; intros rand i t e; cbn [sample_loop]; [discriminate|]. destruct nltb; [discriminate|apply IH]. Qed.
  Lemma ridx_no_err {A} (l : list A) i e : ridx l i <> Err e.
  Proof. unfold ridx. destruct nth_error; discriminate. Qed.
  Lemma ridx_in {A} (l : list A) i a : ridx l i = Ok a -> In a l.
  Proof. unfold ridx. destruct nth_error eqn:E; [|discriminate]. intros [= <-]. eapply nth_error_In, E. Qed.
  Lemma loop_err (M : matrix F) us : forall ch cens e, incl cens (mrows M) -> kpp_loop M us ch cens = Err e ->
    e = InvalidData /\ exists c x, In c (mrows M) /\ In x (mrows M) /\ nfinite (sqdist c x) = false.
  Proof.
    induction us as [|u us IH]; intros ch cens e HI; cbn [kpp_loop]; [discriminate|]. unfold find_closest_centroids.
    destruct (rmap_res (closest (Mat cens (mcols M)) (mcols M)) (mrows M)) as [->|(ps & -> & Hp)].
    { intros x e' _. unfold closest, rassert, argmin. destruct (_ =? _); [|discriminate]. destruct (map _ _); discriminate. }
    - discriminate.
    - cbn [rbind]. destruct (forallb nfinite (map snd ps)) eqn:EF; cbn [negb].
      + destruct (sample_discretely (map snd ps) u) as [nx|k|] eqn:ES; cbn [rbind]; [|exfalso|discriminate].
        * destruct (ridx (mrows M) nx) as [r|k|] eqn:ER; cbn [rbind]; [|now apply ridx_no_err in ER|discriminate].
          apply IH. intros v Hv. apply in_app_or in Hv. destruct Hv as [Hv|[<-|[]]]; [now apply HI|]. eapply ridx_in, ER.
        * unfold sample_discretely, rassert in ES. destruct (0 <? _); [|discriminate]. destruct nltb; [|discriminate]. now apply sample_no_err in ES.
      + intros [= <-]. split; [reflexivity|].
        assert (Q : exists d, In d (map snd ps) /\ nfinite d = false).
        { clear Hp. induction (map snd ps) as [|d ds IHd]; [discriminate|]. cbn in EF. destruct (nfinite d) eqn:Ed; [|exists d; split; [now left|exact Ed]].
          destruct (IHd EF) as (d' & ? & ?). exists d'. split; [now right|assumption]. }
        destruct Q as (d & Hd & Ed). apply in_map_iff in Hd. destruct Hd as (p & <- & Hd). destruct (Hp p Hd) as (x & Hx & Ex).
        unfold closest, rassert in Ex. destruct (_ =? _) in Ex; [|discriminate]. unfold argmin in Ex. cbn [mrows] in Ex.
        destruct cens as [|c cs]; [discriminate|]. cbn [map] in Ex. injection Ex as <-.
        destruct (argbest_in (fun v m => nltb v m) (map (fun c0 => sqdist c0 x) cs) 1 0 (sqdist c x)) as [H|H].
        * exists c, x. split; [apply HI; now left|]. split; [exact Hx|]. rewrite <- H. exact Ed.
        * apply in_map_iff in H. destruct H as (c' & H & Hc). exists c', x. split; [apply HI; now right|]. split; [exact Hx|]. rewrite H. exact Ed.
  Qed.
  Theorem kpp_err (M : matrix F) k first us e : kpp M k first us = Err e ->
    e = InvalidData /\ exists c x, In c (mrows M) /\ In x (mrows M) /\ nfinite (sqdist c x) = false.
  Proof.
    unfold kpp. destruct (ridx (mrows M) first) as [r|k'|] eqn:ER; cbn [rbind]; [|now apply ridx_no_err in ER|discriminate].
    destruct (kpp_loop M us [first] [r]) as [[ch cens]|k'|] eqn:EL; cbn [rbind]; [|intros [= <-]|discriminate].
    - unfold rassert. destruct (_ =? _); discriminate.
    - eapply loop_err, EL. intros v [<-|[]]. eapply ridx_in, ER.
  Qed.
  (** Conversely, one draw is enough when the first chosen row has no finite distance to some row. *)
  Theorem kpp_err_conv (M : matrix F) k first u us r : ridx (mrows M) first = Ok r -> (exists x, In x (mrows M) /\ nfinite (sqdist r x) = false) ->
    kpp M k first (u :: us) = Err InvalidData.
  Proof.
    intros E (x & Hx & HF). unfold kpp. rewrite E. cbn [rbind kpp_loop]. unfold find_closest_centroids.
    assert (R : rmap (closest (Mat [r] (mcols M)) (mcols M)) (mrows M) = Ok (map (fun x => (0, sqdist r x)) (mrows M))).
    { clear. induction (mrows M) as [|y ys IH]; [reflexivity|]. cbn [rmap map]. rewrite IH. unfold closest. cbn [mcols]. rewrite Nat.eqb_refl. reflexivity. }
    rewrite R. cbn [rbind]. rewrite map_map. cbn [snd].
    assert (Z : forallb nfinite (map (fun x => sqdist r x) (mrows M)) = false).
    { clear R E. induction (mrows M) as [|y ys IH]; [destruct Hx|]. cbn [map forallb]. destruct Hx as [->|Hx]; [now rewrite HF|]. rewrite IH by exact Hx. apply andb_false_r. }
    now rewrite Z.
  Qed.
  Theorem kpp_err_first (M : matrix F) k first us r : ridx (mrows M) first = Ok r -> us <> [] ->
    (exists x, In x (mrows M) /\ nfinite (sqdist r x) = false) -> kpp M k first us = Err InvalidData.
  Proof. destruct us as [|u us]; [contradiction|]. intros E _ H. eapply kpp_err_conv; eassumption. Qed.
End KPPErr.

Lemma kpp_err_ex : exists M : matrix X, mwf M /\ kpp M 2 0 [Fin (1 / 2)] = Err InvalidData.
Proof.
  exists (Mat [[Fin 0]; [NaN]] 1). split; [repeat constructor|]. apply kpp_err_first with (r := [Fin 0]); [reflexivity|discriminate|].
  exists [NaN]. split; [right; now left|reflexivity].
Qed.
