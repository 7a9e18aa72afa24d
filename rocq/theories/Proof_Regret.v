From Coq Require Import List Arith Lia Bool Reals Lra Permutation.
From Verif Require Import Base BaseLemmas Num Linalg LinalgR MatR Model_Rand Model_Optim Spec_Optim Proof_Optim Spec_Regret.
From Verif Require Proof_Equiv Proof_KerInv.
Import ListNotations.
Local Open Scope R_scope.

(** ** From epochs to visits *)
Section Trace.
  Variables (n : nat) (cg : list R -> matrix R -> matrix R -> res (R * list R)) (inputs targets : matrix R).
  Variables (f : nat -> list R -> R) (G : nat -> list R -> list R).
  Hypothesis RC : row_costs n cg inputs targets f G.
  Variable next : list R -> list R -> list R -> list R -> list R -> Prop.
  Hypothesis NL : forall w a g w' a', next w a g w' a' -> length w' = length w.
  (** A sweep followed by visits. *)
  Lemma sweep_visits order : forall w a c w1 a1 c1 order2 ws2 v, length w = n -> sweep cg next inputs targets order w a c w1 a1 c1 -> length w1 = n /\
    (visits next G order2 w1 a1 ws2 v -> exists ws1, length ws1 = length order /\ visits next G (order ++ order2) w a (ws1 ++ ws2) v).
  Proof.
    induction order as [|i order IH]; intros w a c w1 a1 c1 order2 ws2 v L H; revert L; inversion H; subst; intros L.
    - split; [auto|]. intros V. exists []. split; [reflexivity|exact V].
    - match goal with K : next _ _ _ _ _ |- _ => rename K into HN end. match goal with K : sweep _ _ _ _ order _ _ _ _ _ _ |- _ => rename K into HS end.
      match goal with K : cg _ _ _ = Ok _ |- _ => rename K into HG end. destruct (RC i x t w) as [E LG]; auto. rewrite E in HG. injection HG as <- <-.
      assert (L1 : length w2 = n) by (rewrite (NL _ _ _ _ _ HN); exact L).
      destruct (IH _ _ _ _ _ _ order2 ws2 v L1 HS) as [L1' HV]. split; [exact L1'|]. intros V. destruct (HV V) as (ws1 & Lw & V1). exists (w :: ws1). split; [cbn; lia|]. cbn [app]. econstructor; eauto.
  Qed.
  Lemma epochs_visits eps m : forall prev w a orders v, length w = n -> epochs cg next inputs targets eps m prev w a orders v ->
    exists ws, visits next G (concat orders) w a ws v.
  Proof.
    induction m as [|m IH]; intros prev w a orders v L H; revert L; inversion H; subst; intros L.
    - exists []. constructor.
    - match goal with Q : sweep _ _ _ _ _ _ _ _ _ _ _ |- _ => destruct (sweep_visits _ _ _ _ _ _ _ [] [] v L Q) as [L1 HV] end.
      destruct (HV (visits_done _ _ _ _)) as (ws1 & _ & V). exists (ws1 ++ []). cbn [concat]. exact V.
    - match goal with Q : sweep _ _ _ _ _ _ _ _ _ _ _ |- _ => destruct (sweep_visits _ _ _ _ _ _ _ [] [] v L Q) as [L1 _]; pose proof Q as Q' end.
      match goal with Q : epochs _ _ _ _ _ m _ _ _ _ _ |- _ => destruct (IH _ _ _ _ _ L1 Q) as (ws2 & V2) end.
      destruct (sweep_visits _ _ _ _ _ _ _ (concat orders0) ws2 v L Q') as [_ HV]. destruct (HV V2) as (ws1 & _ & V). exists (ws1 ++ ws2). cbn [concat]. exact V.
  Qed.
  Lemma visits_length order : forall w a ws v, length w = n -> visits next G order w a ws v -> length ws = length order /\ Forall (fun w => length w = n) ws.
  Proof.
    induction order as [|i order IH]; intros w a ws v L H; revert L; inversion H; subst; intros L; [split; [reflexivity|constructor]|].
    destruct (IH w1 a1 ws0 v) as [E1 E2]; auto; [match goal with K : next _ _ _ _ _ |- _ => rewrite (NL _ _ _ _ _ K) end; exact L|]. cbn. split; [lia|constructor; auto].
  Qed.
End Trace.
Lemma sumR_shift m f : sumR (S m) f = f 0%nat + sumR m (fun i => f (S i)).
Proof. induction m as [|m IH]; [cbn; lra|]. change (sumR (S (S m)) f) with (sumR (S m) f + f (S m)). rewrite IH. cbn. lra. Qed.
(** The total over whole epochs of a fixed parameter vector. *)
Lemma fixed_epochs (f : nat -> R) m : forall orders, Forall (Permutation (seq 0 m)) orders ->
  fold_right Rplus 0 (map f (concat orders)) = INR (length orders) * sumR m f.
Proof.
  assert (FA : forall l1 l2, fold_right Rplus 0 (l1 ++ l2) = fold_right Rplus 0 l1 + fold_right Rplus 0 l2) by (induction l1; intros; cbn; [lra|rewrite IHl1; lra]).
  assert (FP : forall l1 l2, Permutation l1 l2 -> fold_right Rplus 0 l1 = fold_right Rplus 0 l2) by (induction 1; cbn; lra).
  assert (FS : forall m s, fold_right Rplus 0 (map f (seq s m)) = sumR m (fun i => f (s + i)%nat)).
  { clear. induction m as [|m IH]; intros s; [reflexivity|]. cbn [seq map fold_right]. rewrite IH, sumR_shift. rewrite Nat.add_0_r. f_equal. apply sumR_ext. intros i _. f_equal. lia. }
  induction orders as [|o orders IH]; intros H; [cbn; lra|]. inversion H; subst. cbn [concat length]. rewrite map_app, FA, IH, S_INR by auto.
  rewrite <- (FP _ _ (Permutation_map f H2)), FS. change (sumR m (fun i => f (0 + i)%nat)) with (sumR m f). ring.
Qed.

(** ** Regret from per-coordinate bounds *)
Section Regret.
  Variables (n : nat) (f : nat -> list R -> R) (G : nat -> list R -> list R).
  Hypothesis LG : forall i w, length w = n -> length (G i w) = n.
  (** The linear part of the regret in coordinate [j]. *)
  Definition lin (u : list R) (j : nat) (order : list nat) (ws : list (list R)) : R :=
    fold_right Rplus 0 (map2 (fun i w => at_ (G i w) j * (at_ w j - at_ u j)) order ws).
  Lemma convex_lin u : length u = n -> forall order ws, (forall i, In i order -> convex n (f i) (G i)) -> Forall (fun w => length w = n) ws -> length ws = length order ->
    incurred f order ws <= fold_right Rplus 0 (map (fun i => f i u) order) + sumR n (fun j => lin u j order ws).
  Proof.
    intros Lu. induction order as [|i order IH]; intros [|w ws] HC HL HE; try discriminate.
    - unfold incurred, lin. cbn. clear. induction n; cbn; lra.
    - inversion HL as [|? ? Lw HL2]. unfold incurred, lin in *. cbn [map2 map fold_right]. rewrite sumR_plus. specialize (IH ws ltac:(intros; apply HC; now right) HL2 ltac:(cbn in HE; lia)).
      pose proof (HC i (or_introl eq_refl) w u Lw Lu) as C.
      rewrite (Proof_KerInv.dot_inner n) in C; [|now apply LG|unfold vsub; rewrite map2_length; lia].
      assert (E : Spec_KerInv.inner n (G i w) (vsub u w) = - sumR n (fun j => at_ (G i w) j * (at_ w j - at_ u j))).
      { unfold Spec_KerInv.inner. match goal with |- _ = - ?t => replace (- t) with (-1 * t) by ring end. rewrite <- sumR_scal. apply sumR_ext. intros k Hk. unfold at_, vsub. rewrite (map2_nth nsub u w k nzero nzero) by lia. cbn. ring. }
      rewrite E in C. lra.
  Qed.

  (** *** Momentum *)
  Lemma sgd_lin al mu B u j : 0 < al < 1 -> 0 < mu -> 0 <= B -> (j < n)%nat -> forall order w a ws v, length w = n ->
    visits (sgd_next al mu) G order w a ws v -> gradients_within n G B order ws -> Rabs (at_ a j) <= mu * B / (1 - al) ->
    lin u j order ws <= (at_ w j - al ^ 2 / (1 - al) * at_ a j - at_ u j) ^ 2 * (1 - al) / (2 * mu) + INR (length order) * (mu * B ^ 2 / (2 * (1 - al)) + al ^ 2 * mu * B ^ 2 / (1 - al) ^ 2).
  Proof.
    intros Ha Hm HB Hj. set (eta := mu / (1 - al)). assert (He : 0 < eta) by (apply Rdiv_lt_0_compat; lra). set (c := al ^ 2 / (1 - al)).
    assert (Hc : 0 <= c) by (unfold c; apply Rmult_le_pos; [nra|apply Rlt_le, Rinv_0_lt_compat; lra]).
    replace (mu * B ^ 2 / (2 * (1 - al)) + al ^ 2 * mu * B ^ 2 / (1 - al) ^ 2) with (eta * B ^ 2 / 2 + c * (B * (eta * B))) by (unfold eta, c; field; lra).
    replace (mu * B / (1 - al)) with (eta * B) by (unfold eta; field; lra).
    assert (EQ : forall t, t * (1 - al) / (2 * mu) = t / (2 * eta)) by (intros; unfold eta; field; lra).
    induction order as [|i order IH]; intros w a ws v L V HG Hv; revert L; inversion V as [|i' o' w' a' w1 a1 ws1 v' N V']; subst; intros L; rewrite EQ in *.
    - unfold lin. cbn [map2 fold_right length INR]. rewrite Rmult_0_l, Rplus_0_r. apply Rmult_le_pos; [apply pow2_ge_0|apply Rlt_le, Rinv_0_lt_compat; lra].
    - destruct N as (La & Lw & N). destruct (N j ltac:(lia)) as [N1 N2]. cbn [nadd nmul nsub nopp nonev NumR] in N1, N2.
      pose proof (HG i w (or_introl eq_refl) j Hj) as Hg. set (g := at_ (G i w) j) in *.
      assert (Hv1 : Rabs (at_ a1 j) <= eta * B).
      { rewrite N1. eapply Rle_trans; [apply Rabs_triang|]. rewrite !Rabs_mult, (Rabs_right mu), (Rabs_right al) by lra. replace (eta * B) with (B * mu + eta * B * al) by (unfold eta; field; lra).
        apply Rplus_le_compat; apply Rmult_le_compat_r; lra. }
      specialize (IH w1 a1 ws1 v ltac:(lia) V' ltac:(intros i0 w0 Hin; apply HG; now right) Hv1). rewrite EQ in IH.
      assert (EL : lin u j (i :: order) (w :: ws1) = g * (at_ w j - at_ u j) + lin u j order ws1) by reflexivity. rewrite EL. clear EL.
      assert (Ey : at_ w1 j - c * at_ a1 j - at_ u j = (at_ w j - c * at_ a j - at_ u j) - eta * g). { rewrite N2, N1. unfold c, eta. field. lra. }
      rewrite Ey in IH. set (y := at_ w j - c * at_ a j - at_ u j) in *. replace (at_ w j - at_ u j) with (y + c * at_ a j) by (unfold y; ring).
      assert (E3 : (y - eta * g) ^ 2 / (2 * eta) = y ^ 2 / (2 * eta) - g * y + eta * g ^ 2 / 2) by (field; lra). rewrite E3 in IH.
      assert (Hg2 : g ^ 2 <= B ^ 2). { rewrite <- (pow2_abs g). apply pow_incr. split; [apply Rabs_pos|exact Hg]. }
      assert (Hga : g * at_ a j <= B * (eta * B)). { eapply Rle_trans; [apply Rle_abs|]. rewrite Rabs_mult. apply Rmult_le_compat; auto using Rabs_pos. }
      assert (c * (g * at_ a j) <= c * (B * (eta * B))) by (apply Rmult_le_compat_l; auto). assert (eta * g ^ 2 / 2 <= eta * B ^ 2 / 2) by nra.
      cbn [length]. rewrite S_INR. set (k := lin u j order ws1) in *. clearbody k y. replace (g * (y + c * at_ a j)) with (g * y + c * (g * at_ a j)) by ring. lra.
  Qed.

  (** *** AdaGrad *)
  Lemma ada_lin al tau B D u j : 0 < al -> 0 < tau -> 0 <= B -> 0 <= D -> (j < n)%nat -> forall order w a ws v, length w = n ->
    visits (ada_next al tau) G order w a ws v -> gradients_within n G B order ws -> stays_within n D u ws -> 0 <= at_ a j ->
    exists s, sqrt (at_ a j) <= s /\ s ^ 2 <= at_ a j + INR (length order) * B ^ 2 /\
      lin u j order ws <= (at_ w j - at_ u j) ^ 2 * (tau + sqrt (at_ a j)) / (2 * al) + D ^ 2 * (s - sqrt (at_ a j)) / (2 * al) + al * (s - sqrt (at_ a j)).
  Proof.
    intros Hal Ht HB HD Hj. induction order as [|i order IH]; intros w a ws v L V HG HS Hs; revert L; inversion V as [|i' o' w' a' w1 a1 ws1 v' N V']; subst; intros L.
    - exists (sqrt (at_ a j)). split; [lra|]. rewrite pow2_sqrt by auto. cbn [length INR]. split; [lra|]. unfold lin. cbn [map2 fold_right]. replace (sqrt (at_ a j) - sqrt (at_ a j)) with 0 by ring.
      pose proof (sqrt_pos (at_ a j)). assert (0 <= (at_ v j - at_ u j) ^ 2 * (tau + sqrt (at_ a j)) / (2 * al)); [|unfold Rdiv; lra].
      apply Rmult_le_pos; [apply Rmult_le_pos; [apply pow2_ge_0|lra]|apply Rlt_le, Rinv_0_lt_compat; lra].
    - destruct N as (La & Lw & N). destruct (N j ltac:(lia)) as [N1 N2]. cbn [nadd nmul nsub ndiv nsqrt NumR] in N1, N2.
      pose proof (HG i w (or_introl eq_refl) j Hj) as Hg. pose proof (HS w (or_introl eq_refl) j Hj) as Hw. set (g := at_ (G i w) j) in *.
      assert (Hg2 : g ^ 2 <= B ^ 2). { rewrite <- (pow2_abs g). apply pow_incr. split; [apply Rabs_pos|exact Hg]. }
      assert (Hw2 : (at_ w j - at_ u j) ^ 2 <= D ^ 2). { rewrite <- (pow2_abs (at_ w j - at_ u j)). apply pow_incr. split; [apply Rabs_pos|exact Hw]. }
      assert (Hs1 : 0 <= at_ a1 j) by (rewrite N1; nra).
      destruct (IH w1 a1 ws1 v ltac:(lia) V' ltac:(intros i0 w0 Hin; apply HG; now right) ltac:(intros w0 Hin; apply HS; now right) Hs1) as (s & S1 & S2 & S3).
      set (q := sqrt (at_ a j)) in *. set (q1 := sqrt (at_ a1 j)) in *.
      assert (Hq : 0 <= q) by apply sqrt_pos. assert (Hq1 : 0 <= q1) by apply sqrt_pos. assert (Q : q ^ 2 = at_ a j) by (unfold q; now rewrite pow2_sqrt). assert (Q1 : q1 ^ 2 = at_ a1 j) by (unfold q1; now rewrite pow2_sqrt).
      assert (Qm : q <= q1) by (unfold q, q1; apply sqrt_le_1; [auto|auto|rewrite N1; nra]).
      assert (EL : lin u j (i :: order) (w :: ws1) = g * (at_ w j - at_ u j) + lin u j order ws1) by reflexivity. rewrite EL. clear EL.
      exists s. split; [lra|]. split. { cbn [length]. rewrite S_INR. rewrite N1 in S2. nra. }
      set (y := at_ w j - at_ u j) in *. assert (Ey : at_ w1 j - at_ u j = y - al * (g / (tau + q1))) by (unfold y; rewrite N2; ring). rewrite Ey in S3.
      assert (E3 : (y - al * (g / (tau + q1))) ^ 2 * (tau + q1) / (2 * al) = y ^ 2 * (tau + q1) / (2 * al) - g * y + al * (g ^ 2 / (2 * (tau + q1)))) by (field; lra). rewrite E3 in S3.
      assert (K1 : g ^ 2 / (2 * (tau + q1)) <= q1 - q).
      { apply Rmult_le_reg_r with (2 * (tau + q1)); [lra|]. replace (g ^ 2 / (2 * (tau + q1)) * (2 * (tau + q1))) with (g ^ 2) by (field; lra). assert (EG : g ^ 2 = q1 ^ 2 - q ^ 2) by (rewrite Q, Q1, N1; ring). rewrite EG. nra. }
      assert (K2 : al * (g ^ 2 / (2 * (tau + q1))) <= al * (q1 - q)) by (apply Rmult_le_compat_l; lra).
      assert (K3 : y ^ 2 * (q1 - q) / (2 * al) <= D ^ 2 * (q1 - q) / (2 * al)).
      { apply Rmult_le_compat_r; [apply Rlt_le, Rinv_0_lt_compat; lra|]. apply Rmult_le_compat_r; lra. }
      replace (y ^ 2 * (tau + q1) / (2 * al)) with (y ^ 2 * (tau + q) / (2 * al) + y ^ 2 * (q1 - q) / (2 * al)) in S3 by (field; lra).
      replace (D ^ 2 * (s - q) / (2 * al)) with (D ^ 2 * (s - q1) / (2 * al) + D ^ 2 * (q1 - q) / (2 * al)) by (field; lra). 
      set (k := lin u j order ws1) in *. clearbody k. set (t1 := y ^ 2 * (tau + q) / (2 * al)) in *. set (t2 := y ^ 2 * (q1 - q) / (2 * al)) in *. set (t3 := D ^ 2 * (q1 - q) / (2 * al)) in *. set (t4 := D ^ 2 * (s - q1) / (2 * al)) in *. set (t5 := al * (g ^ 2 / (2 * (tau + q1)))) in *. clearbody t1 t2 t3 t4 t5. nra.
  Qed.
End Regret.

(** ** The runs *)
Section Runs.
  Variables (n : nat) (cg : list R -> matrix R -> matrix R -> res (R * list R)) (inputs targets : matrix R).
  Variables (f : nat -> list R -> R) (G : nat -> list R -> list R).
  Hypothesis RC : row_costs n cg inputs targets f G.
  Hypothesis LG : forall i w, length w = n -> length (G i w) = n.
  Hypothesis CV : forall i, (i < nrows inputs)%nat -> convex n (f i) (G i).
  Lemma order_small orders : Forall (Permutation (seq 0 (nrows inputs))) orders -> forall i, In i (concat orders) -> (i < nrows inputs)%nat.
  Proof.
    intros H i Hi. apply in_concat in Hi. destruct Hi as (o & Ho & Hi). rewrite Forall_forall in H. specialize (H o Ho). apply (Permutation_in i (Permutation_sym H)) in Hi. apply in_seq in Hi. lia.
  Qed.
  Lemma concat_length_perm orders : Forall (Permutation (seq 0 (nrows inputs))) orders -> length (concat orders) = (length orders * nrows inputs)%nat.
  Proof. induction 1 as [|o orders P H IH]; [reflexivity|]. cbn [concat length]. rewrite app_length, IH, <- (Permutation_length P), seq_length. lia. Qed.
  Lemma at_zero j m : at_ (repeat (nzero : R) m) j = 0.
  Proof. unfold at_. cbn. revert j. induction m; intros [|j]; cbn; auto. Qed.
  Theorem sgd_regret (self : StochasticGD R) start v : 0 < sgd_alpha self < 1 -> 0 < sgd_mu self -> length start = n ->
    outcome (sgd_optimize self cg start inputs targets) (Some v) -> exists orders ws,
      Forall (Permutation (seq 0 (nrows inputs))) orders /\ (length orders <= sgd_iters self)%nat /\
      visits (sgd_next (sgd_alpha self) (sgd_mu self)) G (concat orders) start (repeat 0 n) ws v /\
      forall B, 0 <= B -> gradients_within n G B (concat orders) ws -> forall u, length u = n ->
        incurred f (concat orders) ws <= INR (length orders) * fixed_cost f (nrows inputs) u +
          sumR n (fun j => (at_ start j - at_ u j) ^ 2) * (1 - sgd_alpha self) / (2 * sgd_mu self) +
          INR n * INR (length orders) * INR (nrows inputs) * (sgd_mu self * B ^ 2 / (2 * (1 - sgd_alpha self)) + sgd_alpha self ^ 2 * sgd_mu self * B ^ 2 / (1 - sgd_alpha self) ^ 2).
  Proof.
    intros Ha Hm L O. destruct (optimize_epochs cg (sgd_step self) _ inputs targets (sgd_step_next self) _ start v O) as (orders & HP & HL & HE & Lv).
    assert (NL : forall w a g w' a', sgd_next (sgd_alpha self) (sgd_mu self) w a g w' a' -> length w' = length w) by (intros w a g w' a' (_ & Q & _); exact Q).
    destruct (epochs_visits n cg inputs targets f G RC _ NL _ _ _ _ _ _ _ L HE) as (ws & V). rewrite L in V.
    exists orders, ws. split; [exact HP|]. split; [exact HL|]. split; [exact V|]. intros B HB HG u Lu.
    destruct (visits_length n G _ NL _ _ _ _ _ L V) as [Lw Fw].
    eapply Rle_trans; [apply (convex_lin n f G LG u Lu); auto; intros i Hi; apply CV, (order_small _ HP i Hi)|].
    rewrite (fixed_epochs (fun i => f i u) (nrows inputs)) by exact HP. fold (fixed_cost f (nrows inputs) u). rewrite Rplus_assoc. apply Rplus_le_compat_l.
    set (K := sgd_mu self * B ^ 2 / (2 * (1 - sgd_alpha self)) + _) in *.
    apply Rle_trans with (sumR n (fun j => (at_ start j - at_ u j) ^ 2 * ((1 - sgd_alpha self) / (2 * sgd_mu self)) + INR (length orders) * INR (nrows inputs) * K)).
    - apply sumR_le. intros j Hj. eapply Rle_trans; [apply (sgd_lin n G (sgd_alpha self) (sgd_mu self) B u j Ha Hm HB Hj _ _ _ _ _ L V HG)|].
      + replace (repeat 0 n) with (repeat (nzero : R) n) by reflexivity. rewrite at_zero, Rabs_R0. apply Rmult_le_pos; [apply Rmult_le_pos; lra|apply Rlt_le, Rinv_0_lt_compat; lra].
      + replace (repeat 0 n) with (repeat (nzero : R) n) by reflexivity. rewrite at_zero. rewrite concat_length_perm, mult_INR by exact HP. fold K. apply Req_le. unfold Rdiv. ring.
    - rewrite sumR_plus, sumR_scal_r, sumR_const. apply Req_le. unfold Rdiv. ring.
  Qed.
  Theorem ada_regret (self : AdaGrad R) start v : 0 < ada_alpha self -> 0 < ada_tau self -> length start = n ->
    outcome (ada_optimize self cg start inputs targets) (Some v) -> exists orders ws,
      Forall (Permutation (seq 0 (nrows inputs))) orders /\ (length orders <= ada_iters self)%nat /\
      visits (ada_next (ada_alpha self) (ada_tau self)) G (concat orders) start (repeat 0 n) ws v /\
      forall B D u, 0 <= B -> 0 <= D -> length u = n -> gradients_within n G B (concat orders) ws -> stays_within n D u ws ->
        incurred f (concat orders) ws <= INR (length orders) * fixed_cost f (nrows inputs) u +
          sumR n (fun j => (at_ start j - at_ u j) ^ 2) * ada_tau self / (2 * ada_alpha self) +
          INR n * (D ^ 2 / (2 * ada_alpha self) + ada_alpha self) * B * sqrt (INR (length orders) * INR (nrows inputs)).
  Proof.
    intros Ha Ht L O. destruct (optimize_epochs cg (ada_step self) _ inputs targets (ada_step_next self) _ start v O) as (orders & HP & HL & HE & Lv).
    assert (NL : forall w a g w' a', ada_next (ada_alpha self) (ada_tau self) w a g w' a' -> length w' = length w) by (intros w a g w' a' (_ & Q & _); exact Q).
    destruct (epochs_visits n cg inputs targets f G RC _ NL _ _ _ _ _ _ _ L HE) as (ws & V). rewrite L in V.
    exists orders, ws. split; [exact HP|]. split; [exact HL|]. split; [exact V|]. intros B D u HB HD Lu HG HS.
    destruct (visits_length n G _ NL _ _ _ _ _ L V) as [Lw Fw].
    eapply Rle_trans; [apply (convex_lin n f G LG u Lu); auto; intros i Hi; apply CV, (order_small _ HP i Hi)|].
    rewrite (fixed_epochs (fun i => f i u) (nrows inputs)) by exact HP. fold (fixed_cost f (nrows inputs) u). rewrite Rplus_assoc. apply Rplus_le_compat_l.
    set (T := INR (length orders) * INR (nrows inputs)). assert (HT : 0 <= T) by (apply Rmult_le_pos; apply pos_INR). assert (HK : 0 <= D ^ 2 / (2 * ada_alpha self) + ada_alpha self).
    { assert (0 <= D ^ 2 / (2 * ada_alpha self)); [|lra]. apply Rmult_le_pos; [apply pow2_ge_0|apply Rlt_le, Rinv_0_lt_compat; lra]. }
    apply Rle_trans with (sumR n (fun j => (at_ start j - at_ u j) ^ 2 * (ada_tau self / (2 * ada_alpha self)) + (D ^ 2 / (2 * ada_alpha self) + ada_alpha self) * (B * sqrt T))).
    - apply sumR_le. intros j Hj. assert (Z : at_ (repeat (nzero : R) n) j = 0) by apply at_zero.
      destruct (ada_lin n G (ada_alpha self) (ada_tau self) B D u j Ha Ht HB HD Hj _ _ _ _ _ L V HG HS) as (s & S1 & S2 & S3); [change (0 <= at_ (repeat (nzero:R) n) j); rewrite at_zero; lra|]. rewrite Z, sqrt_0 in S1, S3. rewrite Z, concat_length_perm, mult_INR in S2 by exact HP. fold T in S2.
      eapply Rle_trans; [exact S3|]. assert (Hs : s <= B * sqrt T). { apply Rsqr_incr_0_var; [|apply Rmult_le_pos; [lra|apply sqrt_pos]]. unfold Rsqr. replace (B * sqrt T * (B * sqrt T)) with (B ^ 2 * (sqrt T) ^ 2) by ring. rewrite pow2_sqrt by auto. nra. }
      replace (D ^ 2 * (s - 0) / (2 * ada_alpha self)) with (D ^ 2 / (2 * ada_alpha self) * s) by (field; lra).
      replace ((at_ start j - at_ u j) ^ 2 * (ada_tau self + 0) / (2 * ada_alpha self)) with ((at_ start j - at_ u j) ^ 2 * (ada_tau self / (2 * ada_alpha self))) by (field; lra).
      set (t := (at_ start j - at_ u j) ^ 2 * _). set (c := D ^ 2 / (2 * ada_alpha self)) in *. clearbody t c. rewrite Rplus_assoc. apply Rplus_le_compat_l. nra.
    - rewrite sumR_plus, sumR_scal_r, sumR_const. apply Req_le. unfold Rdiv. ring.
  Qed.
End Runs.
