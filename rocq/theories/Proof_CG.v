(** The conjugate gradient optimiser: termination and the number of evaluations, for every arithmetic. *)
From Coq Require Import List Arith Lia Bool.
From Verif Require Import Base BaseLemmas Num Linalg LinalgR Model_Optim Proof_Optim Model_CG Spec_CG.
Import ListNotations.

Section Count.
  Context {F : Type} {N : Num F}.
  Variable self : ConjugateGD F.
  Variable n : nat.
  Variable cost : list F -> res (F * list F).
  Hypothesis total : total_cost n cost.

  (** The vectors have [n] entries and [f2], [df2] belong to [x]. *)
  Definition ls_fit (st : Search F) : Prop := length (ls_x st) = n /\ length (ls_df2 st) = n /\ cost (ls_x st) = Ok (ls_f2 st, ls_df2 st) /\ In (ls_x st) (ls_calls st).
  Lemma rvadd_fit (a b : list F) : length a = n -> length b = n -> rvadd a b = Ok (vadd a b) /\ length (vadd a b) = n.
  Proof.
    intros Ha Hb. unfold rvadd. rewrite Ha, Hb, Nat.eqb_refl. split; [reflexivity|]. unfold vadd. rewrite map2_length. lia.
  Qed.
  Lemma rvsub_fit (a b : list F) : length a = n -> length b = n -> rvsub a b = Ok (vsub a b) /\ length (vsub a b) = n.
  Proof.
    intros Ha Hb. unfold rvsub. rewrite Ha, Hb, Nat.eqb_refl. split; [reflexivity|]. unfold vsub. rewrite map2_length. lia.
  Qed.

  Section Search.
    Variables (f1 d1 : F) (s : list F).
    Hypothesis Ls : length s = n.
    Lemma move_fit st z2 f3 d3 z3 l : ls_fit st -> exists st', move cost s st z2 f3 d3 z3 l = Ok st' /\ ls_fit st' /\ length (ls_calls st') = S (length (ls_calls st)) /\
      incl (ls_calls st) (ls_calls st').
    Proof.
      intros (Hx & _). unfold move. destruct (rvadd_fit (ls_x st) (vscale z2 s) Hx) as (E & L); [rewrite vscale_length; exact Ls|].
      rewrite E. cbn [rbind]. destruct (total _ L) as (f & df & Ec & Ld). rewrite Ec. cbn [rbind]. eexists. split; [reflexivity|].
      split; [|split; [reflexivity|]]; cbn.
      - split; [exact L|]. split; [exact Ld|]. split; [exact Ec|]. left. reflexivity.
      - intros y Hy. right. exact Hy.
    Qed.
    Lemma interp_fit : forall m st, ls_fit st -> exists st' m', interp_loop self cost f1 d1 s m st = Ok (st', m') /\ ls_fit st' /\ (m' <= m)%nat /\
      length (ls_calls st') + m' = length (ls_calls st) + m /\ incl (ls_calls st) (ls_calls st').
    Proof.
      induction m as [|m IH]; intros st H; cbn [interp_loop].
      - exists st, O. split; [reflexivity|]. split; [exact H|]. split; [lia|]. split; [lia|apply incl_refl].
      - destruct (cg_bad _ _ _ _).
        + cbv zeta. set (z2 := interp_clamp _ _ _). destruct (move_fit st z2 (ls_f3 st) (ls_d3 st) (nsub (ls_z3 st) z2) (ls_z1 st) H) as (st1 & E & H1 & L1 & I1).
          rewrite E. cbn [rbind]. destruct (IH st1 H1) as (st' & m' & E' & H' & Hm & HL & I'). exists st', m'. split; [exact E'|]. split; [exact H'|].
          split; [lia|]. split; [lia|]. eapply incl_tran; eauto.
        + exists st, (S m). split; [reflexivity|]. split; [exact H|]. split; [lia|]. split; [lia|apply incl_refl].
    Qed.
    Lemma search_fit : forall fuel m st, (m < fuel)%nat -> ls_fit st -> exists st' b, search_loop self cost f1 d1 s fuel m st = Ok (st', b) /\ ls_fit st' /\
      (length (ls_calls st') <= length (ls_calls st) + m)%nat /\ incl (ls_calls st) (ls_calls st').
    Proof.
      induction fuel as [|fuel IH]; intros m st Hf H; [lia|]. cbn [search_loop].
      destruct (interp_fit m st H) as (st1 & m1 & E & H1 & Hm & HL & I1). rewrite E. cbn [rbind].
      destruct (cg_bad _ _ _ _); [exists st1, false; split; [reflexivity|]; split; [exact H1|]; split; [lia|exact I1]|].
      destruct (nltb _ _); [exists st1, true; split; [reflexivity|]; split; [exact H1|]; split; [lia|exact I1]|].
      destruct m1 as [|m1]; [exists st1, false; split; [reflexivity|]; split; [exact H1|]; split; [lia|exact I1]|]. cbv zeta.
      destruct (move_fit st1 (extrap_step self st1) (ls_f2 st1) (ls_d2 st1) (nopp (extrap_step self st1)) (ls_limit st1) H1) as (st2 & E2 & H2 & L2 & I2).
      rewrite E2. cbn [rbind]. destruct (IH m1 st2 ltac:(lia) H2) as (st' & b & E' & H' & HL' & I'). exists st', b. split; [exact E'|]. split; [exact H'|].
      split; [lia|]. eapply incl_tran; [exact I1|]. eapply incl_tran; eauto.
    Qed.
  End Search.

  Definition rd_fit (st : Round F) : Prop :=
    length (rd_x st) = n /\ length (rd_df1 st) = n /\ length (rd_s st) = n /\ (exists df, cost (rd_x st) = Ok (rd_f1 st, df)) /\ In (rd_x st) (rd_calls st).
  Lemma start_fit st : rd_fit st -> exists ls, search_start cost st = Ok ls /\ ls_fit ls /\ length (ls_calls ls) = S (length (rd_calls st)) /\ incl (rd_calls st) (ls_calls ls).
  Proof.
    intros (Hx & Hd & Hs & _). unfold search_start. destruct (rvadd_fit (rd_x st) (vscale (rd_z1 st) (rd_s st)) Hx) as (E & L); [rewrite vscale_length; exact Hs|].
    rewrite E. cbn [rbind]. destruct (total _ L) as (f & df & Ec & Ld). rewrite Ec. cbn [rbind]. eexists. split; [reflexivity|].
    split; [|split; [reflexivity|]]; cbn.
    - split; [exact L|]. split; [exact Ld|]. split; [exact Ec|]. left. reflexivity.
    - intros y Hy. right. exact Hy.
  Qed.
  Lemma accept_fit st ls : rd_fit st -> ls_fit ls -> exists st', accept self st ls = Ok st' /\ rd_fit st' /\ rd_calls st' = ls_calls ls.
  Proof.
    intros (Hx & Hd & Hs & _) (Lx & Ld & Ec & Hin). unfold accept. cbv zeta.
    destruct (rvsub_fit _ _ Ld Hd) as (E1 & L1). rewrite E1. cbn [rbind]. unfold rvsub. rewrite map_length, vscale_length, Hs, Ld, Nat.eqb_refl. cbn [rassert rbind].
    eexists. split; [reflexivity|]. split; [|reflexivity]. split; [exact Lx|]. split; [exact Ld|]. split; [|split; [eexists; exact Ec|exact Hin]].
    cbn [rd_s]. destruct (nltb _ _); [rewrite map_length; exact Ld|]. unfold vsub. rewrite map2_length, map_length, vscale_length. lia.
  Qed.
  Lemma loop_fit : forall k st, rd_fit st -> exists st', cg_loop self cost k st = Ok st' /\ rd_fit st' /\
    (length (rd_calls st') <= length (rd_calls st) + k * (1 + cg_max self))%nat.
  Proof.
    induction k as [|k IH]; intros st H; cbn [cg_loop].
    - exists st. split; [reflexivity|]. split; [exact H|lia].
    - destruct (start_fit st H) as (ls & E & Hl & Ll & Il). rewrite E. cbn [rbind].
      destruct H as (Hx & Hd & Hs & (df & Ec) & Hin).
      destruct (search_fit (rd_f1 st) (rd_d1 st) (rd_s st) Hs (S (cg_max self)) (cg_max self) ls ltac:(lia) Hl) as (ls' & b & E' & Hl' & Ll' & Il').
      rewrite E'. cbn [rbind]. destruct b.
      + destruct (accept_fit st ls') as (st1 & E1 & H1 & C1); [repeat split; eauto|exact Hl'|]. rewrite E1. cbn [rbind].
        destruct (IH st1 H1) as (st' & E2 & H2 & L2). exists st'. split; [exact E2|]. split; [exact H2|]. rewrite C1 in L2. lia.
      + destruct (rd_failed st || (cg_iters self <? cg_iters self - k)%nat)%bool.
        * eexists. split; [reflexivity|]. split; [|cbn [rd_calls]; lia]. repeat split; cbn; eauto.
        * destruct (IH (reject st ls')) as (st' & E2 & H2 & L2).
          { destruct Hl' as (_ & Ld & _). split; [exact Hx|]. split; [exact Ld|]. split; [cbn; rewrite map_length; exact Ld|]. split; [eexists; exact Ec|].
            cbn. apply Il', Il, Hin. }
          exists st'. split; [exact E2|]. split; [exact H2|]. cbn [rd_calls reject] in L2. lia.
  Qed.
  Theorem run_fit start : length start = n -> exists st, cg_run self cost start = Ok st /\ rd_fit st /\
    (length (rd_calls st) <= 1 + cg_iters self * (1 + cg_max self))%nat.
  Proof.
    intros L. unfold cg_run, cg_start. destruct (total start L) as (f & df & E & Ld). rewrite E. cbn [rbind]. cbv zeta.
    match goal with |- context [cg_loop self cost _ ?s0] => destruct (loop_fit (cg_iters self) s0) as (st & E' & H & HL) end.
    - split; [exact L|]. split; [exact Ld|]. split; [cbn; rewrite map_length; exact Ld|]. split; [eexists; exact E|left; reflexivity].
    - exists st. split; [exact E'|]. split; [exact H|]. cbn [rd_calls length] in HL. exact HL.
  Qed.
  Theorem evaluations start : length start = n -> exists x calls, cg_optimize self cost start = Ok x /\ length x = n /\
    (exists st, cg_run self cost start = Ok st /\ calls = rd_calls st) /\ In x calls /\
    (length calls <= 1 + cg_iters self * (1 + cg_max self))%nat.
  Proof.
    intros L. destruct (run_fit start L) as (st & E & (Hx & _ & _ & _ & Hin) & HL). exists (rd_x st), (rd_calls st).
    unfold cg_optimize. rewrite E. split; [reflexivity|]. split; [exact Hx|]. split; [eauto|]. split; [exact Hin|exact HL].
  Qed.
End Count.
