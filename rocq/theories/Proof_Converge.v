(** Convergence of gradient descent on convex smooth costs. *)
From Coq Require Import List Arith Lia Bool Reals Lra.
From Verif Require Import Base BaseLemmas Num NumFn Linalg LinalgR Euclid Spec_Calc CalcR MatR Proof_KMeans Model_Cost Proof_Cost
  Model_Toolkit Proof_Toolkit Model_Optim Spec_Optim Proof_Optim Proof_Optim2 Model_Regression Spec_Regression Proof_Regression Proof_Regression2.
Import ListNotations.
Local Open Scope R_scope.

Lemma d2_step (x q g : list R) a : length q = length x -> length g = length x ->
  d2 (vsub x (vscale a g)) q = d2 x q - 2 * a * dot g (vsub x q) + a * a * dot g g.
Proof.
  intros Lq Lg. assert (L1 : length (vscale a g) = length x) by (rewrite vscale_length; auto).
  assert (E : forall v, dot (vscale a g) v = a * dot g v) by (intros; apply dot_vscale_l).
  unfold d2. repeat first [rewrite dot_vsub_l by (repeat rewrite vsub_len'; auto) | rewrite dot_vsub_r by (repeat rewrite vsub_len'; auto)].
  rewrite !E, !(dot_comm _ (vscale a g)), !E. rewrite ?(dot_comm q g), ?(dot_comm x g), ?(dot_comm q x). ring.
Qed.

Section Rate.
  Variables (n : nat) (f : list R -> R) (G : list R -> list R) (L alpha : R) (cg : list R -> res (R * list R)).
  Hypothesis Hs : smooth n f G L.
  Hypothesis Hc : convex n f G.
  Hypothesis Hcg : forall x, length x = n -> cg x = Ok (f x, G x).
  Hypothesis A0 : 0 < alpha.
  Hypothesis A1 : alpha * L <= 1.
  Variables (q : list R) (D : R).
  Hypothesis Lq : length q = n.

  Lemma rate_loop : forall k m x prev w, length x = n ->
    2 * alpha * INR m * (f x - f q) + d2 x q <= D ->
    (m = 0%nat /\ prev = 0 \/ exists xp mp, length xp = n /\ prev = f xp /\ f x <= f xp - alpha / 2 * dot (G xp) (G xp) /\
       2 * alpha * INR mp * (f xp - f q) + d2 xp q <= D) ->
    gd_loop alpha cg k x prev = Ok w ->
    2 * alpha * INR (m + k) * (f w - f q) <= D \/
    f w - f q <= sqrt (2 * / 10 ^ 20 / alpha) * sqrt D \/
    (m = 0%nat /\ w = x /\ Rabs (f x) < / 10 ^ 20).
  Proof.
    induction k as [|k IH]; intros m x prev w Lx Hm Hp H.
    - cbn in H. injection H as <-. left. rewrite Nat.add_0_r. pose proof (d2_nonneg x q). lra.
    - cbn [gd_loop] in H. rewrite (Hcg x Lx) in H. cbn [rbind] in H. destruct (nltb _ _) eqn:E in H.
      + injection H as <-. right. rewrite learning_eps_R in E. cbn [nltb nabs nsub NumR] in E.
        destruct (Rlt_dec _ _) as [K|]; [|discriminate]. clear E.
        destruct Hp as [(-> & ->)|(xp & mp & Lp & -> & Hd & Hi)].
        * right. split; auto. split; auto. rewrite Rminus_0_l, Rabs_Ropp in K. exact K.
        * left. destruct (Rle_dec (f xp) (f q)) as [Hle|Hgt].
          { pose proof (sqrt_pos (2 * / 10 ^ 20 / alpha)). pose proof (sqrt_pos D). pose proof (dot_ge0 (G xp)). nra. }
          assert (Hg : dot (G xp) (G xp) <= 2 * / 10 ^ 20 / alpha).
          { apply Rmult_le_reg_r with (alpha / 2); [lra|]. replace (2 * / 10 ^ 20 / alpha * (alpha / 2)) with (/ 10 ^ 20) by (generalize (/ 10 ^ 20); intros; field; lra).
            apply Rabs_def2 in K. lra. }
          assert (Hdist : d2 xp q <= D). { pose proof (pos_INR mp). assert (0 <= 2 * alpha * INR mp * (f xp - f q)); [|lra]. apply Rmult_le_pos; [|lra]. nra. }
          pose proof (Hc xp q Lp Lq) as C. 
          assert (C2 : f xp - f q <= dot (G xp) (vsub xp q)).
          { rewrite dot_vsub_r in * by lia. lra. }
          pose proof (cauchy_sqrt (G xp) (vsub xp q)) as CS.
          apply sqrt_le_1_alt in Hg. apply sqrt_le_1_alt in Hdist. change (dot (vsub xp q) (vsub xp q)) with (d2 xp q) in CS.
          pose proof (sqrt_pos (dot (G xp) (G xp))). pose proof (sqrt_pos (d2 xp q)). pose proof (dot_ge0 (G xp)).
          assert (sqrt (dot (G xp) (G xp)) * sqrt (d2 xp q) <= sqrt (2 * / 10 ^ 20 / alpha) * sqrt D) by (apply Rmult_le_compat; auto).
          nra.
      + clear E. apply rbind_Ok_inv in H. destruct H as (y & Hy & H). apply rvsub_Ok in Hy. destruct Hy as (E & ->).
        rewrite vscale_length in E.
        assert (K : gd_next alpha x (G x) (vsub x (vscale alpha (G x)))).
        { split; [auto|]. rewrite vsub_len by (rewrite vscale_length; auto). split; [auto|]. intros j Hj.
          rewrite at_vsub, at_vscale by (rewrite ?vscale_length; lia). reflexivity. }
        pose proof (descent_step n f G L _ _ _ Hs (Rlt_le _ _ A0) A1 Lx K) as Dn.
        set (x' := vsub x (vscale alpha (G x))) in *.
        assert (Lx' : length x' = n) by (destruct K as (_ & K & _); lia).
        destruct (IH (S m) x' (f x) w Lx') as [R1|[R1|(R1 & _)]]; auto.
        * unfold x'. rewrite d2_step by lia. pose proof (Hc x q Lx Lq) as C.
          assert (C2 : f x - f q <= dot (G x) (vsub x q)) by (rewrite dot_vsub_r in * by lia; lra).
          fold x'. rewrite S_INR. pose proof (pos_INR m). pose proof (dot_ge0 (G x)).
          assert (M : 2 * alpha * INR m * (f x' - f q) <= 2 * alpha * INR m * (f x - f q)). { apply Rmult_le_compat_l; nra. }
          nra.
        * right. exists x, m. auto.
        * left. replace (m + S k)%nat with (S m + k)%nat by lia. exact R1.
        * discriminate.
  Qed.
End Rate.

Theorem gd_rate n f G L self cg start w q : smooth n f G L -> convex n f G ->
  (forall x, length x = n -> cg x = Ok (f x, G x)) -> 0 < gd_alpha self -> gd_alpha self * L <= 1 ->
  length start = n -> length q = n -> gd_optimize self cg start = Ok w ->
  2 * gd_alpha self * INR (gd_iters self) * (f w - f q) <= d2 start q \/
  f w - f q <= sqrt (2 * / 10 ^ 20 / gd_alpha self) * sqrt (d2 start q) \/
  (w = start /\ Rabs (f start) < / 10 ^ 20).
Proof.
  intros Hs Hc Hcg A0 A1 Ls Lq H.
  destruct (rate_loop n f G L (gd_alpha self) cg Hs Hc Hcg A0 A1 q (d2 start q) Lq (gd_iters self) 0 start 0 w Ls) as [R1|[R1|(_ & R1)]]; auto.
  cbn [INR]. lra.
Qed.
