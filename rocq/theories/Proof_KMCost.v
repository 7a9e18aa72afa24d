(** * Proofs: training and the objective when clusters lose their rows *)
From Coq Require Import List Arith Lia Bool Reals Lra.
From Verif Require Import Base BaseLemmas Num NumX NumF Linalg LinalgR MatR Model_KMeans Spec_Calc Spec_KMeans Spec_Transforms Spec_KMInv Spec_KPP Spec_KMCost.
From Verif Require Import Proof_KMeans Proof_KMeansEx Proof_KMInv Proof_KMInvEx Proof_KPPMath Proof_KPP.
Import ListNotations.
Local Open Scope R_scope.

Definition ox (o : option R) : X := match o with Some x => Fin x | None => NaN end.
Lemma argbest_opt (os : list (option R)) : forall i bi bv, exists j v,
  argbest (fun v m => nltb v m) (map ox os) i bi (Fin bv) = (j, Fin v) /\ v <= bv /\ (forall x, In (Some x) os -> v <= x) /\
  ((j = bi /\ v = bv) \/ exists p, (p < length os)%nat /\ j = (i + p)%nat /\ nth p os None = Some v).
Proof.
  induction os as [|o os IH]; intros i bi bv; cbn [map argbest].
  - exists bi, bv. repeat split; auto; try lra. easy.
  - destruct o as [x|]; cbn [ox].
    + change (nltb (Fin x) (Fin bv)) with (if Rlt_dec x bv then true else false). destruct (Rlt_dec x bv) as [L|L].
      * destruct (IH (S i) i x) as (j & v & E & A & B & C). exists j, v. split; auto. split; [lra|]. split.
        { intros y [[= <-]|Hy]; auto. }
        right. destruct C as [(-> & ->)|(p & Hp & -> & Ep)]; [exists 0%nat; cbn; repeat split; auto; lia|exists (S p); cbn; repeat split; auto; lia].
      * destruct (IH (S i) bi bv) as (j & v & E & A & B & C). exists j, v. split; auto. split; [lra|]. split.
        { intros y [[= <-]|Hy]; auto. lra. }
        destruct C as [C|(p & Hp & -> & Ep)]; [now left|right; exists (S p); cbn; repeat split; auto; lia].
    + change (nltb NaN (Fin bv)) with false. cbv iota. destruct (IH (S i) bi bv) as (j & v & E & A & B & C). exists j, v. split; auto. split; auto. split.
      { intros y [[=]|Hy]; auto. }
      destruct C as [C|(p & Hp & -> & Ep)]; [now left|right; exists (S p); cbn; repeat split; auto; lia].
Qed.

Lemma all_fin_Fin v : all_fin (map Fin v) = Some v.
Proof. induction v; cbn; auto. now rewrite IHv. Qed.

Section Cost.
  Context (M : matrix R) (WM : mwf M) (k : nat) (Pk : (0 < k)%nat).
  Let row i := nth i (mrows M) [].
  Let n := nrows M.
  Let d := mcols M.
  Hypothesis Pd : (0 < d)%nat.

  Definition rx (o : option (list R)) : list X := match o with Some v => map Fin v | None => repeat NaN d end.
  Definition okC (os : list (option (list R))) : Prop := length os = k /\ forall v, In (Some v) os -> length v = d.
  Definition mx (os : list (option (list R))) : matrix X := Mat (map rx os) d.
  Definition somes (os : list (option (list R))) : list (list R) := flat_map (fun o => match o with Some v => [v] | None => [] end) os.
  Lemma in_somes v os : In v (somes os) <-> In (Some v) os.
  Proof.
    unfold somes. rewrite in_flat_map. split.
    - intros ([w|] & H & I); [|easy]. destruct I as [->|[]]. auto.
    - intros H. exists (Some v). split; auto. now left.
  Qed.
  Lemma usable_mx os : mrows (usable (mx os)) = somes os.
  Proof.
    unfold usable, mx, somes. cbn [mrows]. induction os as [|o os IH]; cbn [map flat_map]; auto. rewrite IH. destruct o as [v|]; cbn [rx].
    - now rewrite all_fin_Fin.
    - destruct d; [lia|reflexivity].
  Qed.

  Lemma sqdist_rx o i : (i < n)%nat -> (forall v, o = Some v -> length v = d) -> sqdist (rx o) (map Fin (row i)) = ox (option_map (fun v => sqd d (row i) v) o).
  Proof.
    intros Hi L. assert (Lr : length (row i) = d) by (apply mwf_row; auto). destruct o as [v|]; cbn [rx option_map ox].
    - rewrite sqdist_Fin. f_equal. rewrite (sqdist_sum d) by auto. apply sqd_sym.
    - now apply sqdist_NaN.
  Qed.
  Lemma closest_opt os i : okC os -> (i < n)%nat -> (exists v, nth 0 os None = Some v) ->
    exists j v, closest (mx os) d (map Fin (row i)) = Ok (j, Fin (sqd d (row i) v)) /\ (j < k)%nat /\ nth j os None = Some v /\ sqd d (row i) v = nearest_sq d (row i) (somes os).
  Proof.
    intros (Lk & Lv) Hi (v0 & E0). unfold closest, mx. cbn [mcols mrows]. rewrite Nat.eqb_refl. cbn [rassert].
    rewrite map_map. rewrite (map_ext_in _ (fun o => ox (option_map (fun v => sqd d (row i) v) o))).
    2: { intros o Ho. apply sqdist_rx; auto. intros v ->. auto. }
    destruct os as [|o os]; [cbn in Lk; lia|]. cbn [nth] in E0. subst o. cbn [map argmin option_map ox].
    rewrite <- (map_map (option_map (fun v => sqd d (row i) v)) ox). destruct (argbest_opt (map (option_map (fun v => sqd d (row i) v)) os) 1 0 (sqd d (row i) v0)) as (j & v & E & A & B & C).
    rewrite E.
    assert (Ex : exists w, v = sqd d (row i) w /\ (j < k)%nat /\ nth j (Some v0 :: os) None = Some w).
    { destruct C as [(-> & ->)|(p & Hp & -> & Ep)]; [exists v0; repeat split; auto|].
      rewrite map_length in Hp. change (@None R) with (option_map (fun v => sqd d (row i) v) None) in Ep. rewrite map_nth in Ep.
      destruct (nth p os None) as [w|] eqn:Ew; [|discriminate]. injection Ep as <-. exists w. cbn in Lk. repeat split; auto; lia. }
    destruct Ex as (w & -> & Hj & Ew). exists j, w. repeat split; auto. apply nearest_unique.
    - apply in_somes. rewrite <- Ew. apply nth_In. lia.
    - intros c' Hc'. apply in_somes in Hc'. destruct Hc' as [[= <-]|Hc']; auto. apply B. apply in_map_iff. exists (Some c'). auto.
  Qed.
  Lemma nth_injrow i : (i < n)%nat -> nth i (mrows (inj M)) [] = map Fin (row i).
  Proof. intros H. unfold inj. cbn [mrows]. change (@nil X) with (map Fin []). apply map_nth. Qed.
  Lemma rmap_all {A B} (f : A -> res B) (P : nat -> B -> Prop) (l : list A) (da : A) : (forall i, (i < length l)%nat -> exists b, f (nth i l da) = Ok b /\ P i b) ->
    exists bs, rmap f l = Ok bs /\ length bs = length l /\ forall i db, (i < length l)%nat -> P i (nth i bs db).
  Proof.
    revert P. induction l as [|x l IH]; intros P H; cbn [rmap].
    - exists []. repeat split; auto. cbn. lia.
    - destruct (H 0%nat ltac:(cbn; lia)) as (b & Eb & Pb). cbn [nth] in Eb. rewrite Eb. cbn [rbind].
      destruct (IH (fun i => P (S i))) as (bs & -> & L & Q). { intros i Hi. apply (H (S i)). cbn; lia. }
      exists (b :: bs). cbn. split; auto. split; auto. intros [|i] db Hi; auto. apply Q. lia.
  Qed.
  Lemma find_opt os : okC os -> (exists v, nth 0 os None = Some v) ->
    exists idx ds, find_closest_centroids (mx os) (inj M) = Ok (idx, ds) /\ length idx = n /\
      forall i, (i < n)%nat -> (nth i idx 0 < k)%nat /\ exists v, nth (nth i idx 0%nat) os None = Some v /\ sqd d (row i) v = nearest_sq d (row i) (somes os).
  Proof.
    intros OK F0. unfold find_closest_centroids.
    destruct (rmap_all (closest (mx os) (mcols (inj M))) (fun i p => (fst p < k)%nat /\ exists v, nth (fst p) os None = Some v /\ sqd d (row i) v = nearest_sq d (row i) (somes os)) (mrows (inj M)) []) as (ps & -> & L & P).
    - intros i Hi. assert (Hi' : (i < n)%nat) by (unfold inj in Hi; cbn in Hi; now rewrite map_length in Hi). rewrite nth_injrow by auto.
      destruct (closest_opt os i OK Hi' F0) as (j & v & E & Hj & Ej & En). eexists. split; [exact E|]. cbn. eauto.
    - cbn [rbind]. eexists _, _. split; [reflexivity|]. assert (Ln : length (mrows (inj M)) = n) by (unfold inj; cbn; apply map_length). split; [rewrite map_length; lia|].
      intros i Hi. specialize (P i (0%nat, NaN) ltac:(lia)). change 0%nat with (fst (0%nat, NaN)). rewrite map_nth. exact P.
  Qed.
  Lemma update_opt idx : length idx = n -> (forall i, (i < n)%nat -> (nth i idx 0 < k)%nat) ->
    exists os', update_centroids k (inj M) idx = Ok (mx os') /\ okC os' /\
      forall c, (c < k)%nat -> nth c os' None = if in_dec Nat.eq_dec c idx then Some (class_mean M idx c) else None.
  Proof.
    intros L _. rewrite update_spec by (rewrite inj_nrows; auto).
    set (g := fun c => if in_dec Nat.eq_dec c idx then Some (class_mean M idx c) else None). exists (map g (seq 0 k)). split; [|split; [split|]].
    - f_equal. unfold mx. rewrite map_map. change (mcols (inj M)) with d. f_equal. apply map_ext. intros c. unfold g. destruct in_dec as [I|I]; cbn [rx].
      + now apply class_mean_X.
      + now apply class_mean_NaN.
    - now rewrite map_length, seq_length.
    - intros v Hv. apply in_map_iff in Hv. destruct Hv as (c & E & _). unfold g in E. destruct in_dec; [|discriminate]. injection E as <-. apply class_mean_length.
    - intros c Hc. rewrite (nth_indep _ None (g 0%nat)) by (now rewrite map_length, seq_length). now rewrite map_nth, seq_nth by auto.
  Qed.
  Lemma part_in (idx : list nat) c : length idx = n -> In c idx -> 0 < part n (fun i => nth i idx 0%nat) c (fun _ => 1).
  Proof.
    intros L I. destruct (In_nth _ _ 0%nat I) as (i & Hi & E). rewrite L in Hi. unfold part.
    apply Rlt_le_trans with ((fun i => if (nth i idx 0%nat =? c)%nat then 1 else 0) i).
    - cbv beta. rewrite E, Nat.eqb_refl. lra.
    - apply (sumR_ge_term n (fun i => if (nth i idx 0%nat =? c)%nat then 1 else 0)); auto. intros j _. destruct (_ =? _)%nat; lra.
  Qed.
  Lemma mean_best idx c v : length idx = n -> In c idx ->
    part n (fun i => nth i idx 0%nat) c (fun i => sqd d (row i) (class_mean M idx c)) <= part n (fun i => nth i idx 0%nat) c (fun i => sqd d (row i) v).
  Proof.
    intros L I. set (a := fun i => nth i idx 0%nat).
    assert (PS : forall f p, part n a c (fun i => sumR p (f i)) = sumR p (fun j => part n a c (fun i => f i j))).
    { intros f p. unfold part. rewrite <- sumR_exch. apply sumR_ext. intros i _. destruct (a i =? c)%nat; auto. symmetry. now apply sumR_zero. }
    unfold sqd. rewrite !PS. apply sumR_le. intros j Hj. rewrite class_mean_entry by (auto; exact L). fold n. set (m := part n a c (fun _ => 1)).
    assert (Pm : 0 < m) by (now apply part_in).
    assert (Em : INR (length (class_rows idx c)) = m).
    { unfold m, part, a. exact (class_count idx c n L). }
    rewrite Em. set (s := part n a c (fun i => nth j (row i) 0)).
    assert (Es : sumR n (fun i => if (nth i idx 0 =? c)%nat then entry M i j else 0) = s) by reflexivity. rewrite Es.
    assert (Q : forall b, part n a c (fun i => (nth j (row i) 0 - b) ^ 2) = part n a c (fun i => nth j (row i) 0 ^ 2) - 2 * b * s + m * b ^ 2).
    { intros b. transitivity (part n a c (fun i => nth j (row i) 0 ^ 2 + (-2 * b) * nth j (row i) 0 + b ^ 2)).
      - apply sumR_ext. intros i _. destruct (a i =? c)%nat; auto. ring.
      - rewrite !part_plus, part_scal, part_const. fold m s. ring. }
    rewrite !Q. assert (E : forall b, - 2 * b * s + m * b ^ 2 = m * (b - s / m) ^ 2 - s ^ 2 / m) by (intros; field; lra).
    pose proof (E (s / m)) as E1. pose proof (E (nth j v 0)) as E2. replace (s / m - s / m) with 0 in E1 by ring.
    pose proof (pow2_ge_0 (nth j v 0 - s / m)). assert (0 <= m * (nth j v 0 - s / m) ^ 2) by (apply Rmult_le_pos; lra).
    replace (0 ^ 2) with 0 in E1 by ring. rewrite Rmult_0_r in E1. lra.
  Qed.
  Lemma sum_classes (idx : list nat) (f : nat -> R) : (forall i, (i < n)%nat -> (nth i idx 0 < k)%nat) -> sumR n f = sumR k (fun c => part n (fun i => nth i idx 0%nat) c f).
  Proof.
    intros H. unfold part. rewrite <- sumR_exch. apply sumR_ext. intros i Hi. symmetry. now apply (sumR_pick k (fun _ => f i)), H.
  Qed.

  Lemma step_cost os idx os' : okC os -> length idx = n -> 
    (forall i, (i < n)%nat -> (nth i idx 0 < k)%nat /\ exists v, nth (nth i idx 0%nat) os None = Some v /\ sqd d (row i) v = nearest_sq d (row i) (somes os)) ->
    (forall c, (c < k)%nat -> nth c os' None = if in_dec Nat.eq_dec c idx then Some (class_mean M idx c) else None) -> length os' = k ->
    sumR n (fun i => nearest_sq d (row i) (somes os')) <= sumR n (fun i => nearest_sq d (row i) (somes os)).
  Proof.
    intros OK L H H' L'. assert (Hk : forall i, (i < n)%nat -> (nth i idx 0 < k)%nat) by (intros i Hi; apply H; auto).
    rewrite !(sum_classes idx) by auto. apply sumR_le. intros c Hc. destruct (in_dec Nat.eq_dec c idx) as [I|I].
    - eapply Rle_trans.
      + apply (part_le n _ c _ (fun i => sqd d (row i) (class_mean M idx c))). intros i Hi Ea. apply nearest_le, in_somes. pose proof (H' c Hc) as Q.
        destruct in_dec as [_|]; [|contradiction]. rewrite <- Q. apply nth_In. lia.
      + destruct (In_nth _ _ 0%nat I) as (i0 & Hi0 & E0). rewrite L in Hi0. destruct (H i0 Hi0) as (_ & v & Ev & _). rewrite E0 in Ev.
        eapply Rle_trans; [apply (mean_best idx c v L I)|]. apply part_le. intros i Hi Ea. destruct (H i Hi) as (_ & w & Ew & <-). rewrite Ea, Ev in Ew. injection Ew as ->. lra.
    - right. unfold part. rewrite !sumR_zero; auto; intros i Hi; destruct (Nat.eqb_spec (nth i idx 0%nat) c) as [E|]; auto; exfalso; apply I; rewrite <- E; apply nth_In; lia.
  Qed.

  Definition first_kept (r : res (matrix X)) : Prop := exists C v, r = Ok C /\ nth 0 (mrows C) [] = map Fin v.
  Lemma first_mx os : length os = k -> (exists v, nth 0 (mrows (mx os)) [] = map Fin v) -> exists v, nth 0 os None = Some v.
  Proof.
    intros L (v & E). destruct os as [|o os]; [cbn in L; lia|]. cbn in E. destruct o as [w|]; [exists w; reflexivity|]. exfalso. cbn [rx] in E. destruct d; [lia|]. cbn in E. destruct v; discriminate.
  Qed.
  Lemma lloyd_cost tol iters : forall cost os, okC os -> (forall t, (t <= iters)%nat -> first_kept (lloyd tol k (inj M) t cost (mx os))) ->
    exists os', lloyd tol k (inj M) iters cost (mx os) = Ok (mx os') /\ okC os' /\ sumR n (fun i => nearest_sq d (row i) (somes os')) <= sumR n (fun i => nearest_sq d (row i) (somes os)).
  Proof.
    induction iters as [|iters IH]; intros cost os OK H.
    - exists os. split; [reflexivity|]. split; auto. lra.
    - assert (F0 : exists v, nth 0 os None = Some v).
      { apply first_mx; [apply OK|]. destruct (H 0%nat ltac:(lia)) as (C & v & E & Ev). injection E as <-. eauto. }
      destruct (find_opt os OK F0) as (idx & ds & Ef & L & Hidx).
      destruct (update_opt idx L ltac:(intros; now apply Hidx)) as (os' & Eu & OK' & Ho).
      pose proof (step_cost os idx os' OK L Hidx Ho (proj1 OK')) as Dec.
      assert (Step : forall t, lloyd tol k (inj M) (S t) cost (mx os) = if nltb (nabs (nsub cost (vsum ds))) tol then Ok (mx os') else lloyd tol k (inj M) t (vsum ds) (mx os')).
      { intros t. cbn [lloyd]. rewrite Ef. cbn [rbind]. rewrite Eu. reflexivity. }
      rewrite Step. destruct nltb eqn:Es.
      + exists os'. auto.
      + destruct (IH (vsum ds) os' OK') as (os2 & E2 & OK2 & D2).
        * intros t Ht. specialize (H (S t) ltac:(lia)). now rewrite Step in H.
        * exists os2. split; auto. split; auto. lra.
  Qed.
End Cost.

Theorem cost_kept (M C0 : matrix R) k tol iters : mwf M -> mwf C0 -> mcols C0 = mcols M -> nrows C0 = k -> (0 < k <= nrows M)%nat -> (0 < mcols M)%nat ->
  (forall t, (t <= iters)%nat -> exists C v, centres tol (km_new k t) (Ok (inj C0)) (inj M) = Some C /\ nth 0 (mrows C) [] = map Fin v) ->
  exists C, centres tol (km_new k iters) (Ok (inj C0)) (inj M) = Some C /\ potential M (usable C) <= potential M C0.
Proof.
  intros WM WC W K (Pk & LE) Pd H.
  assert (EC : forall t, centres tol (km_new k t) (Ok (inj C0)) (inj M) = match lloyd tol k (inj M) t nzero (inj C0) with Ok C => Some C | _ => Some (inj C0) end).
  { intros t. unfold centres, km_train, init_centroids. cbn [km_k km_iters km_new]. rewrite !inj_nrows. rewrite (proj2 (Nat.ltb_ge _ _) LE). cbn [rbind].
    rewrite inj_nrows, K. change (mcols (inj C0)) with (mcols C0). change (mcols (inj M)) with (mcols M). rewrite W, !Nat.eqb_refl. cbn [negb].
    destruct lloyd; reflexivity. }
  set (os := map Some (mrows C0)).
  assert (Eo : inj C0 = mx M os).
  { unfold inj, mx, os. rewrite map_map, W. reflexivity. }
  assert (OK : okC M k os).
  { split; [unfold os; now rewrite map_length|]. intros v Hv. unfold os in Hv. apply in_map_iff in Hv. destruct Hv as (w & [= ->] & Hw). unfold mwf in WC. rewrite Forall_forall in WC. rewrite <- W. now apply WC. }
  assert (Sm : somes os = mrows C0). { unfold os, somes. clear. induction (mrows C0) as [|r l IH]; cbn; auto. now rewrite IH. }
  assert (LT : forall t, exists C', lloyd tol k (inj M) t nzero (inj C0) = Ok C').
  { intros t. apply lloyd_total; [lia|exact W|now rewrite inj_nrows]. }
  destruct (lloyd_cost M WM k Pk Pd tol iters nzero os OK) as (os' & E & OK' & D).
  { intros t Ht. destruct (H t Ht) as (C & v & Ec & Ev). rewrite EC in Ec. rewrite <- Eo. destruct (LT t) as (C' & E'). rewrite E' in *. injection Ec as ->. exists C, v. auto. }
  exists (mx M os'). split; [rewrite EC, Eo, E; reflexivity|]. unfold potential. rewrite (usable_mx M k Pk Pd os'). rewrite Sm in D. exact D.
Qed.
