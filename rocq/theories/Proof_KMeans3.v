(** * k-means: training reaches a fixed point *)
From Coq Require Import List Arith Lia Bool Reals Lra Permutation.
From Verif Require Import Base BaseLemmas Num NumX NumOrd ArgLemmas Linalg LinalgR Euclid Spec_Calc CalcR Model_KMeans Spec_KNN Spec_KMeans Spec_Transforms
  Proof_KMeans Proof_KMeans2 Proof_KMeansEx.
Import ListNotations.

(** ** All assignments *)
Fixpoint allvecs (k n : nat) : list (list nat) :=
  match n with 0 => [[]] | S n' => flat_map (fun v => map (fun c => c :: v) (seq 0 k)) (allvecs k n') end.
Lemma allvecs_length k n : length (allvecs k n) = k ^ n.
Proof.
  induction n as [|n IH]; [reflexivity|]. cbn [allvecs Nat.pow]. rewrite <- IH. clear IH.
  induction (allvecs k n) as [|v l IH]; cbn [flat_map]; [cbn; lia|]. rewrite app_length, IH, map_length, seq_length. cbn. lia.
Qed.
Lemma in_allvecs k : forall n v, length v = n -> Forall (fun c => c < k) v -> In v (allvecs k n).
Proof.
  induction n as [|n IH]; intros [|c v] L H; cbn in *; try lia; auto. inversion H; subst. apply in_flat_map. exists v. split.
  - apply IH; auto.
  - apply (in_map (fun c => c :: v)), in_seq. lia.
Qed.

(** ** Finitely many values are separated *)
Lemma separated (V : list R) : exists d, (0 < d)%R /\ forall v w, In v V -> In w V -> (Rabs (v - w) < d)%R -> v = w.
Proof.
  induction V as [|x V (d & D & H)]; [exists 1%R; split; [lra|]; intros v w []|].
  assert (Q : exists e, (0 < e)%R /\ forall w, In w V -> (Rabs (x - w) < e)%R -> x = w).
  { clear H. induction V as [|y V (e & E & H)]; [exists 1%R; split; [lra|]; intros w []|].
    destruct (Req_dec x y) as [->|NE].
    - exists e. split; auto. intros w [<-|Hw] B; auto.
    - exists (Rmin e (Rabs (x - y))). split; [apply Rmin_pos; auto; apply Rabs_pos_lt; lra|].
      intros w [<-|Hw] B.
      + exfalso. pose proof (Rmin_r e (Rabs (x - y))). lra.
      + apply H; auto. pose proof (Rmin_l e (Rabs (x - y))). lra. }
  destruct Q as (e & E & HE). exists (Rmin d e). split; [now apply Rmin_pos|].
  pose proof (Rmin_l d e). pose proof (Rmin_r d e).
  intros v w [<-|Hv] [<-|Hw] B; auto.
  - apply HE; auto. lra.
  - symmetry. apply HE; auto. rewrite Rabs_minus_sym. lra.
  - apply H; auto. lra.
Qed.

(** ** Means are the only minimisers *)
Lemma means_split n k (a : nat -> nat) (x : nat -> R) (M C : nat -> R) : (forall i, i < n -> a i < k) ->
  (forall c, c < k -> (M c * sumR n (fun i => if a i =? c then 1 else 0) = sumR n (fun i => if a i =? c then x i else 0))%R) ->
  (sumR n (fun i => (x i - C (a i)) ^ 2) = sumR n (fun i => (x i - M (a i)) ^ 2) + sumR n (fun i => (M (a i) - C (a i)) ^ 2))%R.
Proof.
  intros Ha HM.
  assert (Z : sumR n (fun i => ((M (a i) - C (a i)) * (x i - M (a i)))%R) = 0%R).
  { rewrite (sumR_ext n _ (fun i => sumR k (fun c => if a i =? c then ((M c - C c) * (x i - M c))%R else 0%R))).
    2:{ intros i Hi. symmetry. rewrite (sumR_pick k (fun c => ((M c - C c) * (x i - M c))%R)); auto. }
    rewrite sumR_exch. apply sumR_zero. intros c Hc.
    rewrite (sumR_ext n _ (fun i => ((M c - C c) * ((if a i =? c then x i else 0) - M c * (if a i =? c then 1 else 0)))%R)).
    2:{ intros i Hi. destruct (a i =? c); ring. }
    rewrite sumR_scal, sumR_minus, sumR_scal, <- HM by auto. ring. }
  assert (E : (sumR n (fun i => (x i - C (a i)) ^ 2) = sumR n (fun i => (x i - M (a i)) ^ 2) + sumR n (fun i => (M (a i) - C (a i)) ^ 2) +
     2 * sumR n (fun i => (M (a i) - C (a i)) * (x i - M (a i))))%R).
  { rewrite <- sumR_scal, <- !sumR_plus. apply sumR_ext. intros. ring. }
  rewrite Z in E. lra.
Qed.
Lemma sumR_zero_inv n f : (forall i, i < n -> (0 <= f i)%R) -> sumR n f = 0%R -> forall i, i < n -> f i = 0%R.
Proof.
  induction n as [|n IH]; intros P E i Hi; [lia|]. cbn [sumR] in E.
  pose proof (sumR_ge0 n f ltac:(intros; apply P; lia)). pose proof (P n ltac:(lia)).
  destruct (Nat.eq_dec i n) as [->|]; [lra|]. apply IH; auto; [lra|lia].
Qed.

Lemma matrix_eq (A B : matrix R) : mwf A -> mwf B -> nrows A = nrows B -> mcols A = mcols B ->
  (forall i j, i < nrows A -> j < mcols A -> entry A i j = entry B i j) -> A = B.
Proof.
  intros WA WB N C H. destruct A as [ra ca], B as [rb cb]. cbn in C. subst cb. f_equal.
  unfold nrows in N. cbn [mrows] in N. apply (nth_ext _ _ [] []); auto. intros i Hi.
  pose proof (mwf_row (Mat ra ca) i WA Hi) as L1. pose proof (mwf_row (Mat rb ca) i WB ltac:(unfold nrows; cbn [mrows]; lia)) as L2. cbn [mrows mcols] in *.
  apply (nth_ext _ _ 0%R 0%R); [congruence|]. intros j Hj. apply (H i j Hi). cbn. lia.
Qed.

(** ** The trajectory *)
Section Traj.
  Variables (M : matrix R) (k : nat).
  Hypothesis WM : mwf M.
  Hypothesis K : 0 < k.
  Definition good (C : matrix R) : Prop := mwf C /\ mcols C = mcols M /\ nrows C = k.
  Definition asg (C : matrix R) : list nat := match find_closest_centroids C M with Ok (a, _) => a | _ => [] end.
  Definition cost (C : matrix R) : R := objective M C (asg C).
  Definition means (a : list nat) : matrix R := Mat (map (class_mean M a) (seq 0 k)) (mcols M).
  Definition next (C : matrix R) : matrix R := means (asg C).

  Lemma good_step C : good C -> exists ds, find_closest_centroids C M = Ok (asg C, ds) /\ vsum ds = cost C /\
    update_centroids k M (asg C) = Ok (next C) /\ good (next C) /\ lloyd_step_spec M k (asg C) C (next C).
  Proof.
    intros (WC & W & KC). destruct (closest_to_step M C k WM WC W KC K) as (a & ds & C1 & E1 & E2 & WC1 & St).
    destruct (lloyd_step M C WM WC W ltac:(lia)) as (a' & ds' & _ & E1' & V & _). rewrite E1 in E1'. injection E1' as <- <-.
    unfold cost, next, asg. rewrite E1. exists ds. pose proof St as (La & _ & K1 & W1 & _).
    assert (E : C1 = means a) by (rewrite update_spec in E2 by auto; injection E2 as <-; reflexivity). subst C1.
    split; auto. split; auto. split; auto. split; auto. now split.
  Qed.
  Lemma asg_in C : good C -> In (asg C) (allvecs k (nrows M)).
  Proof.
    intros G. destruct (good_step C G) as (ds & _ & _ & _ & _ & St). apply in_allvecs; [apply St|]. eapply step_assign, St.
  Qed.
  Lemma cost_ge0 C : (0 <= cost C)%R.
  Proof. apply sumR_ge0. intros i Hi. apply sumR_ge0. intros. apply pow2_ge_0. Qed.

  Lemma strict C : good C -> nonempty (asg C) k -> next C = C \/ (cost (next C) < cost C)%R.
  Proof.
    intros G NE. destruct (good_step C G) as (ds & _ & _ & _ & G' & St).
    destruct (good_step _ G') as (ds' & _ & _ & _ & _ & St').
    destruct (step_decreases _ _ _ _ _ _ _ St St') as [D1 D2]. fold (cost (next C)) in D1. fold (cost C) in D2.
    destruct (Rlt_dec (cost (next C)) (cost C)) as [|NL]; auto. left.
    assert (E : objective M (next C) (asg C) = objective M C (asg C)) by (unfold cost in *; lra). clear D1 D2 NL.
    pose proof (step_assign _ _ _ _ _ St) as A. rewrite Forall_forall in A. destruct St as (L & _ & _ & _ & Mn).
    destruct G as (WC & W & KC). destruct G' as (WC' & W' & KC').
    set (a := fun i => nth i (asg C) 0).
    assert (Ha : forall i, i < nrows M -> a i < k) by (intros; apply A, nth_In; lia).
    assert (Z : forall j, j < mcols M -> forall i, i < nrows M -> ((entry (next C) (a i) j - entry C (a i) j) ^ 2 = 0)%R).
    { assert (S : forall j, j < mcols M -> sumR (nrows M) (fun i => (entry (next C) (a i) j - entry C (a i) j) ^ 2)%R = 0%R).
      { apply sumR_zero_inv; [intros; apply sumR_ge0; intros; apply pow2_ge_0|].
        unfold objective in E. fold a in E.
        rewrite (sumR_exch _ _ (fun i c => ((entry M i c - entry (next C) (nth i (asg C) 0%nat) c) ^ 2)%R)),
          (sumR_exch _ _ (fun i c => ((entry M i c - entry C (nth i (asg C) 0%nat) c) ^ 2)%R)) in E.
        rewrite (sumR_ext (mcols M) (fun j => sumR (nrows M) (fun i => (entry M i j - entry C (nth i (asg C) 0%nat) j) ^ 2)%R)
          (fun j => (sumR (nrows M) (fun i => (entry M i j - entry (next C) (a i) j) ^ 2) + sumR (nrows M) (fun i => (entry (next C) (a i) j - entry C (a i) j) ^ 2))%R)) in E.
        2:{ intros j Hj. apply (means_split (nrows M) k a (fun i => entry M i j) (fun c => entry (next C) c j) (fun c => entry C c j)); auto.
            intros c Hc. apply (Mn c Hc (NE c Hc) j Hj). }
        rewrite sumR_plus in E. unfold a in *. lra. }
      intros j Hj. apply sumR_zero_inv; [intros; apply pow2_ge_0|]. now apply S. }
    apply matrix_eq; auto; try congruence. intros c j Hc Hj. rewrite KC' in Hc. rewrite W' in Hj.
    destruct (In_nth _ _ 0 (NE c Hc)) as (i & Hi & <-). specialize (Z j Hj i ltac:(lia)). fold (a i).
    pose proof (Rsqr_0_uniq (entry (next C) (a i) j - entry C (a i) j)) as Q. unfold Rsqr in Q. cbn in Z. rewrite Rmult_1_r in Z. specialize (Q Z). lra.
  Qed.

  Definition traj (C : matrix R) (t : nat) : matrix R := Nat.iter t next C.
  Lemma traj_S C t : traj C (S t) = traj (next C) t.
  Proof.
    induction t as [|t IH]; [reflexivity|]. change (next (traj C (S t)) = next (traj (next C) t)). now rewrite IH.
  Qed.
  Lemma traj_good C t : good C -> good (traj C t).
  Proof. intros G. induction t as [|t IH]; [exact G|]. now destruct (good_step _ IH) as (_ & _ & _ & _ & Q & _). Qed.
  Lemma traj_run C : good C -> forall t, (forall s, s < t -> nonempty (asg (traj C s)) k) -> exists l, lloyd_run M k C l /\ last_centres C l = traj C t.
  Proof.
    intros G t. revert C G. induction t as [|t IH]; intros C G NE.
    - exists []. split; [constructor|reflexivity].
    - destruct (good_step C G) as (ds & _ & _ & _ & G' & St).
      destruct (IH (next C) G') as (l & R1 & E1).
      { intros s Hs. specialize (NE (S s) ltac:(lia)). now rewrite traj_S in NE. }
      exists ((asg C, next C) :: l). split; [econstructor; eauto; apply (NE 0); lia|]. now rewrite last_centres_cons, traj_S.
  Qed.
  Lemma traj_fixed C t : traj C (S t) = traj C t -> forall s, t <= s -> traj C s = traj C t.
  Proof.
    intros E s Hs. induction Hs as [|s Hs IH]; auto. change (traj C (S s)) with (next (traj C s)). rewrite IH. exact E.
  Qed.

  (** A fixed point is met within [k ^ n] steps. *)
  Lemma traj_meets C : good C -> (forall t, t <= k ^ nrows M -> nonempty (asg (traj C t)) k) ->
    exists t, t <= k ^ nrows M /\ traj C (S t) = traj C t.
  Proof.
    intros G NE.
    assert (Q : forall T, T <= S (k ^ nrows M) -> (exists t, t < T /\ traj C (S t) = traj C t) \/ (forall t, t < T -> (cost (traj C (S t)) < cost (traj C t))%R)).
    { induction T as [|T IH]; intros HT; [right; lia|]. destruct IH as [(t & Ht & E)|IH]; [lia|left; exists t; split; auto; lia|].
      destruct (strict (traj C T) (traj_good C T G) (NE T ltac:(lia))) as [E|E].
      - left. exists T. split; [lia|exact E].
      - right. intros t Ht. destruct (Nat.eq_dec t T) as [->|]; [exact E|]. apply IH. lia. }
    destruct (Q (S (k ^ nrows M)) (le_n _)) as [(t & Ht & E)|D]; [exists t; split; auto; lia|]. exfalso. clear Q.
    assert (Mono : forall s t, s < t -> t <= S (k ^ nrows M) -> (cost (traj C t) < cost (traj C s))%R).
    { intros s t Hst. induction Hst as [|t Hst IH]; intros Ht.
      - apply D. lia.
      - specialize (IH ltac:(lia)). specialize (D t ltac:(lia)). lra. }
    set (l := map (fun t => asg (traj C t)) (seq 0 (S (k ^ nrows M)))).
    assert (ND : NoDup l).
    { unfold l. apply (NoDup_nth _ []). intros i j Hi Hj E. rewrite map_length, seq_length in Hi, Hj.
      rewrite !(nth_indep _ [] (asg (traj C 0))) in E by (now rewrite map_length, seq_length).
      rewrite !(map_nth (fun t => asg (traj C t))), !seq_nth in E by auto. cbn [plus] in E.
      assert (EC : traj C (S i) = traj C (S j)) by (change (means (asg (traj C i)) = means (asg (traj C j))); now rewrite E).
      destruct (lt_eq_lt_dec i j) as [[H| ->]|H]; auto; exfalso.
      - pose proof (Mono (S i) (S j) ltac:(lia) ltac:(lia)). rewrite EC in *. lra.
      - pose proof (Mono (S j) (S i) ltac:(lia) ltac:(lia)). rewrite EC in *. lra. }
    assert (IN : incl l (allvecs k (nrows M))).
    { intros a Ha. unfold l in Ha. apply in_map_iff in Ha. destruct Ha as (t & <- & _). apply asg_in, traj_good, G. }
    pose proof (NoDup_incl_length ND IN) as LE. unfold l in LE. rewrite map_length, seq_length, allvecs_length in LE. lia.
  Qed.

  Definition values (C0 : matrix R) : list R := 0%R :: cost C0 :: map (fun a => cost (means a)) (allvecs k (nrows M)).
  Lemma traj_value C t : good C -> In (cost (traj C t)) (values C).
  Proof.
    intros G. unfold values. destruct t as [|t]; [right; now left|]. right. right.
    change (traj C (S t)) with (means (asg (traj C t))). apply (in_map (fun a => cost (means a))), asg_in, traj_good, G.
  Qed.

  (** The loop of the code follows the trajectory, and stops only at a fixed point. *)
  Lemma lloyd_traj d tol C0 : good C0 -> (forall v w, In v (values C0) -> In w (values C0) -> (Rabs (v - w) < d)%R -> v = w) -> (tol <= d)%R ->
    forall iters s c, (forall t, t < s + iters -> nonempty (asg (traj C0 t)) k) ->
    (s = 0 /\ c = 0%R \/ exists s', s = S s' /\ c = cost (traj C0 s')) ->
    lloyd (Fin tol) k (inj M) iters (Fin c) (inj (traj C0 s)) = Ok (inj (traj C0 (s + iters))).
  Proof.
    intros G Sep Tol. induction iters as [|n IH]; intros s c NE Hc; cbn [lloyd]; [now rewrite Nat.add_0_r|].
    destruct (good_step (traj C0 s) (traj_good _ _ G)) as (ds & E1 & V & E2 & _ & St).
    pose proof (NE s ltac:(lia)) as NEs. pose proof St as (La & _).
    rewrite find_closest_Fin, E1. cbn [rbind]. rewrite (update_Fin _ _ _ _ La NEs E2). cbn [rbind]. rewrite vsum_Fin, V.
    destruct (nltb _ (Fin tol)) eqn:Q.
    - assert (Eq : c = cost (traj C0 s)).
      { apply Sep.
        - destruct Hc as [[_ ->]|(s' & _ & ->)]; [now left|now apply traj_value].
        - now apply traj_value.
        - cbn in Q. destruct (Rlt_dec (Rabs (c - cost (traj C0 s))) tol) as [H|H]; [|unfold xltb in Q; cbn in Q; destruct Rlt_dec; [contradiction|discriminate]]. lra. }
      assert (Fx : traj C0 (S s) = traj C0 s).
      { destruct Hc as [[-> ->]|(s' & -> & ->)].
        - destruct (strict (traj C0 0) (traj_good _ _ G) NEs) as [H|H]; [exact H|]. pose proof (cost_ge0 (next (traj C0 0))). lra.
        - destruct (strict (traj C0 s') (traj_good _ _ G) (NE s' ltac:(lia))) as [H|H].
          + change (next (traj C0 (S s')) = traj C0 (S s')). change (traj C0 (S s')) with (next (traj C0 s')). now rewrite H.
          + change (next (traj C0 s')) with (traj C0 (S s')) in H. lra. }
      f_equal. f_equal. change (next (traj C0 s)) with (traj C0 (S s)). rewrite (traj_fixed C0 s Fx (s + S n)) by lia. exact Fx.
    - change (next (traj C0 s)) with (traj C0 (S s)). rewrite (IH (S s)).
      + do 2 f_equal. f_equal. lia.
      + intros t Ht. apply NE. lia.
      + right. eauto.
  Qed.

  Lemma nonempty_or T C : (forall t, t <= T -> nonempty (asg (traj C t)) k) \/
    exists t, t <= T /\ ~ nonempty (asg (traj C t)) k /\ forall s, s < t -> nonempty (asg (traj C s)) k.
  Proof.
    induction T as [|T [IH|(t & Ht & N1 & N2)]].
    - destruct (nonempty_dec (asg (traj C 0)) k) as [H|H].
      + left. intros t Ht. now replace t with 0 by lia.
      + right. exists 0. repeat split; auto. lia.
    - destruct (nonempty_dec (asg (traj C (S T))) k) as [H|H].
      + left. intros t Ht. destruct (Nat.eq_dec t (S T)) as [->|]; auto. apply IH. lia.
      + right. exists (S T). repeat split; auto. intros s Hs. apply IH. lia.
    - right. exists t. repeat split; auto.
  Qed.
End Traj.

Theorem train_fixed_point (M C0 : matrix R) k : mwf M -> mwf C0 -> mcols C0 = mcols M -> nrows C0 = k -> 0 < k <= nrows M ->
  exists d, (0 < d)%R /\ forall tol (m : KMeans X), km_k m = k -> (tol <= d)%R -> k ^ nrows M <= km_iters m ->
    exists m' C, km_train (Fin tol) (Ok (inj C0)) m (inj M) = (m', Ok tt) /\ km_centroids m' = Some C /\
      ((exists Cf a, C = inj Cf /\ nonempty a k /\ lloyd_step_spec M k a Cf Cf) \/
       (exists l a C2, lloyd_run M k C0 l /\ lloyd_step_spec M k a (last_centres C0 l) C2 /\ ~ nonempty a k)).
Proof.
  intros WM WC W KC [P LE]. assert (G : good M k C0) by (split; auto).
  destruct (separated (values M k C0)) as (d & D & Sep). exists d. split; auto. intros tol m Km Tol It.
  assert (Tr : exists C, lloyd (Fin tol) k (inj M) (km_iters m) (Fin 0) (inj C0) = Ok C) .
  { apply lloyd_total; auto. now rewrite inj_nrows. }
  destruct Tr as (C & EL). exists (km_set m C), C. split; [|split; [reflexivity|]].
  - unfold km_train, init_centroids. rewrite !inj_nrows, Km. assert (E : (nrows M <? k) = false) by (apply Nat.ltb_ge; lia). rewrite E. cbn [rbind].
    change (mcols (inj C0)) with (mcols C0). change (mcols (inj M)) with (mcols M). rewrite inj_nrows, KC, W, !Nat.eqb_refl. cbn [negb].
    change (@nzero X NumXI) with (Fin 0). now rewrite EL.
  - destruct (nonempty_or M k P (km_iters m) C0) as [NE|(t & Ht & N1 & N2)].
    + left. change C0 with (traj M k C0 0) in EL. rewrite (lloyd_traj M k WM P d tol C0 G Sep Tol (km_iters m) 0 0%R) in EL; [|intros; apply NE; lia|auto].
      injection EL as <-. cbn [plus].
      destruct (traj_meets M k WM P C0 G) as (t & Ht & Fx); [intros; apply NE; lia|].
      rewrite (traj_fixed M k C0 t Fx (km_iters m)) by lia. exists (traj M k C0 t), (asg M (traj M k C0 t)). split; auto. split; [apply NE; lia|].
      destruct (good_step M k WM P _ (traj_good M k WM P C0 t G)) as (ds & _ & _ & _ & _ & St).
      change (next M k (traj M k C0 t)) with (traj M k C0 (S t)) in St. now rewrite Fx in St.
    + right. destruct (traj_run M k WM P C0 G t N2) as (l & R1 & E1). 
      destruct (good_step M k WM P _ (traj_good M k WM P C0 t G)) as (ds & _ & _ & _ & _ & St).
      eexists l, _, _. rewrite E1. eauto.
Qed.

(** ** A data set on which no centre ever loses its rows *)
Definition demo : matrix R := Mat [[0%R]; [2%R]; [10%R]] 1.
Definition demo_inv (C : matrix R) : Prop := (0 <= nth 0 (nth 0 (mrows C) []) 0 <= 1 /\ nth 0 (nth 1 (mrows C) []) 0 = 10)%R.
Lemma euclid1 a b : euclid 1 a b = Rabs (nth 0 a 0%R - nth 0 b 0%R).
Proof. unfold euclid. cbn. rewrite Rmult_1_r, Rplus_0_r. change (nth 0 a 0 - nth 0 b 0)%R with (nth 0 a 0 - nth 0 b 0)%R. apply sqrt_Rsqr_abs. Qed.
Lemma demo_step a C C' : demo_inv C -> lloyd_step_spec demo 2 a C C' -> a = [0; 0; 1] /\ demo_inv C'.
Proof.
  intros [I0 I1] (L & H & K1 & W1 & Mn).
  assert (E : a = [0; 0; 1]).
  { destruct a as [|a0 [|a1 [|a2 [|]]]]; try discriminate L.
    pose proof (H 0 ltac:(cbn; lia)) as (A0 & B0 & _). pose proof (H 1 ltac:(cbn; lia)) as (A1 & B1 & _). pose proof (H 2 ltac:(cbn; lia)) as (A2 & B2 & _).
    clear H Mn. cbn [nth] in *. specialize (B0 0 ltac:(lia)). specialize (B1 0 ltac:(lia)). specialize (B2 1 ltac:(lia)).
    change (mcols demo) with 1 in *. rewrite !euclid1 in B0, B1, B2. change (mrows demo) with [[0%R]; [2%R]; [10%R]] in *. cbn [nth] in *.
    assert (a0 = 0) by (destruct a0 as [|[|]]; auto; [exfalso; rewrite I1 in B0; revert B0; unfold Rabs; repeat destruct Rcase_abs; lra|lia]).
    assert (a1 = 0) by (destruct a1 as [|[|]]; auto; [exfalso; rewrite I1 in B1; revert B1; unfold Rabs; repeat destruct Rcase_abs; lra|lia]).
    assert (a2 = 1) by (destruct a2 as [|[|]]; auto; [exfalso; rewrite I1 in B2; revert B2; unfold Rabs; repeat destruct Rcase_abs; lra|lia]).
    now subst. }
  subst a. split; auto. pose proof (Mn 0 ltac:(lia) ltac:(cbn; auto) 0 ltac:(cbn; lia)) as Q0. pose proof (Mn 1 ltac:(lia) ltac:(cbn; auto) 0 ltac:(cbn; lia)) as Q1.
  unfold entry in Q0, Q1. cbn in Q0, Q1. split; lra.
Qed.
Lemma demo_never_empty C0 l : lloyd_run demo 2 C0 l -> demo_inv C0 -> forall a C2, lloyd_step_spec demo 2 a (last_centres C0 l) C2 -> nonempty a 2.
Proof.
  induction 1 as [C|C b C' l St NE R IH]; intros I a C2 Sf.
  - destruct (demo_step _ _ _ I Sf) as [-> _]. intros [|[|]] H; cbn; auto. lia.
  - rewrite last_centres_cons in Sf. apply (IH (proj2 (demo_step _ _ _ I St)) _ _ Sf).
Qed.

(** ** Small data: the tolerance stops training after one step *)
Definition u9 : R := (/ 10 ^ 9)%R.
Definition tiny : matrix R := Mat [[0%R]; [2 * u9]%R; [3 * u9]%R; [10 * u9]%R] 1.
Definition tiny_start : matrix R := Mat [[0%R]; [2 * u9]%R] 1.
Lemma u9_pos : (0 < u9)%R. Proof. unfold u9. apply Rinv_0_lt_compat, pow_lt. lra. Qed.
Lemma u9_sq : (65 * u9 ^ 2 < / 10 ^ 14)%R.
Proof.
  unfold u9. replace ((/ 10 ^ 9) ^ 2)%R with (/ 10 ^ 14 * / 10 ^ 4)%R by (cbn; field). assert (0 < / 10 ^ 14)%R by (apply Rinv_0_lt_compat, pow_lt; lra). nra.
Qed.
Ltac abs_cases H := revert H; pose proof u9_pos; unfold Rabs; repeat destruct Rcase_abs; lra.

Lemma tiny_stops iters (m : KMeans X) : km_k m = 2 -> km_iters m = S iters ->
  exists m' Cf, km_train (Fin (/ 10 ^ 14)) (Ok (inj tiny_start)) m (inj tiny) = (m', Ok tt) /\ km_centroids m' = Some (inj Cf) /\
    ~ exists a, lloyd_step_spec tiny 2 a Cf Cf.
Proof.
  intros Km It. assert (WM : mwf tiny) by (repeat constructor). assert (WC : mwf tiny_start) by (repeat constructor).
  assert (G : good tiny 2 tiny_start) by (repeat split; auto).
  destruct (good_step tiny 2 WM ltac:(lia) tiny_start G) as (ds & E1 & V & E2 & G' & St).
  destruct St as (L & H & _ & _ & Mn).
  assert (E : asg tiny tiny_start = [0; 1; 1; 1]).
  { destruct (asg tiny tiny_start) as [|a0 [|a1 [|a2 [|a3 [|]]]]]; try discriminate L.
    pose proof (H 0 ltac:(cbn; lia)) as (A0 & B0 & _). pose proof (H 1 ltac:(cbn; lia)) as (A1 & B1 & _).
    pose proof (H 2 ltac:(cbn; lia)) as (A2 & B2 & _). pose proof (H 3 ltac:(cbn; lia)) as (A3 & B3 & _).
    clear H Mn E1 V E2. cbn [nth] in *. specialize (B0 0 ltac:(lia)). specialize (B1 1 ltac:(lia)). specialize (B2 1 ltac:(lia)). specialize (B3 1 ltac:(lia)).
    change (mcols tiny) with 1 in *. rewrite !euclid1 in B0, B1, B2, B3. unfold tiny, tiny_start in *. cbn [nth mrows] in *.
    assert (a0 = 0) by (destruct a0 as [|[|]]; auto; [exfalso; cbn [nth] in B0; abs_cases B0|lia]).
    assert (a1 = 1) by (destruct a1 as [|[|]]; auto; [exfalso; cbn [nth] in B1; abs_cases B1|lia]).
    assert (a2 = 1) by (destruct a2 as [|[|]]; auto; [exfalso; cbn [nth] in B2; abs_cases B2|lia]).
    assert (a3 = 1) by (destruct a3 as [|[|]]; auto; [exfalso; cbn [nth] in B3; abs_cases B3|lia]).
    now subst. }
  exists (km_set m (inj (next tiny 2 tiny_start))), (next tiny 2 tiny_start). split; [|split; [reflexivity|]].
  - unfold km_train, init_centroids. rewrite !inj_nrows, Km. change (nrows tiny <? 2) with false. cbn [rbind]. rewrite inj_nrows.
    change (nrows tiny_start =? 2) with true. change (mcols (inj tiny_start) =? mcols (inj tiny)) with true. cbn [negb]. rewrite It. cbn [lloyd]. rewrite find_closest_Fin, E1. cbn [rbind].
    rewrite (update_Fin tiny _ 2 _ L ltac:(rewrite E; intros [|[|]] ?; cbn; auto; lia) E2). cbn [rbind]. rewrite vsum_Fin, V.
    assert (Q : nltb (nabs (nsub (@nzero X NumXI) (Fin (cost tiny tiny_start)))) (Fin (/ 10 ^ 14)) = true).
    { assert (EC : cost tiny tiny_start = (65 * u9 ^ 2)%R) by (unfold cost, objective; rewrite E; unfold entry; cbn; ring).
      rewrite EC. pose proof u9_sq. cbn -[pow]. destruct Rlt_dec as [|N]; auto. exfalso. apply N.
      rewrite Rabs_left1; [lra|]. pose proof (pow2_ge_0 u9). lra. }
    cbn [nofnat] in Q. rewrite Q. reflexivity.
  - intros (a & La & Ha & _ & _ & Ma). rewrite E in Mn.
    pose proof (Mn 0 ltac:(lia) ltac:(cbn; auto) 0 ltac:(cbn; lia)) as Q0. pose proof (Mn 1 ltac:(lia) ltac:(cbn; auto) 0 ltac:(cbn; lia)) as Q1.
    unfold entry in Q0, Q1. set (Cf := next tiny 2 tiny_start) in *. cbn -[Cf] in Q0, Q1.
    set (c0 := nth 0 (nth 0 (mrows Cf) []) 0%R) in *. set (c1 := nth 0 (nth 1 (mrows Cf) []) 0%R) in *.
    assert (c0 = 0%R) by lra. assert (c1 = (5 * u9)%R) by lra. clear Q0 Q1.
    destruct a as [|a0 [|a1 [|a2 [|a3 [|]]]]]; try discriminate La.
    pose proof (Ha 0 ltac:(cbn; lia)) as (A0 & B0 & _). pose proof (Ha 1 ltac:(cbn; lia)) as (A1 & B1 & _).
    pose proof (Ha 2 ltac:(cbn; lia)) as (A2 & B2 & _). pose proof (Ha 3 ltac:(cbn; lia)) as (A3 & B3 & _).
    clear Ha. cbn [nth] in *. specialize (B0 0 ltac:(lia)). specialize (B1 0 ltac:(lia)). specialize (B2 1 ltac:(lia)). specialize (B3 1 ltac:(lia)).
    change (mcols tiny) with 1 in *. rewrite !euclid1 in B0, B1, B2, B3. fold c0 in B0, B1. fold c1 in B2, B3. unfold tiny in B0, B1, B2, B3. cbn [nth mrows] in *.
    assert (a0 = 0) by (destruct a0 as [|[|]]; auto; [exfalso; fold c1 in B0; rewrite H0, H1 in B0; abs_cases B0|lia]).
    assert (a1 = 0) by (destruct a1 as [|[|]]; auto; [exfalso; fold c1 in B1; rewrite H0, H1 in B1; abs_cases B1|lia]).
    assert (a2 = 1) by (destruct a2 as [|[|]]; auto; [exfalso; fold c0 in B2; rewrite H0, H1 in B2; abs_cases B2|lia]).
    assert (a3 = 1) by (destruct a3 as [|[|]]; auto; [exfalso; fold c0 in B3; rewrite H0, H1 in B3; abs_cases B3|lia]).
    subst a0 a1 a2 a3. pose proof (Ma 0 ltac:(lia) ltac:(cbn; auto) 0 ltac:(cbn; lia)) as Q0. unfold entry in Q0. cbn -[Cf] in Q0. fold c0 in Q0.
    pose proof u9_pos. lra.
Qed.
