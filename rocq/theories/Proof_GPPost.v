(** * After a successful training [get_posterior] answers *)
From Coq Require Import List Arith Lia Bool Reals Lra.
From Verif Require Import Base BaseLemmas Num NumFn Linalg LinalgR Spec_Calc MatR Model_Kernel Spec_Kernel Proof_Kernel Model_Regression Model_Optim Model_GP Spec_GP Proof_GP Spec_Succeeds Proof_Oracles.
Import ListNotations.
Local Open Scope R_scope.

Lemma rmap_total {A B} (f : A -> res B) l : (forall a, In a l -> exists b, f a = Ok b) -> exists bs, rmap f l = Ok bs.
Proof.
  induction l as [|a l IH]; intros H; [eexists; reflexivity|]. destruct (H a (or_introl eq_refl)) as (b & E). destruct IH as (bs & E'); [intros; apply H; now right|].
  cbn [rmap]. rewrite E. cbn [rbind]. rewrite E'. eexists. reflexivity.
Qed.
Theorem posterior_succeeds (ker : Kernel R) k mean cholesky solve_l solve_u (self self' : GaussianProcess R) X y Xs :
  cholesky_sound cholesky -> triangular_exact lower_triangular solve_l -> mwf X -> kernel_is (mcols X) ker k ->
  gp_train ker mean cholesky solve_l solve_u self X y = (self', Ok tt) -> mwf Xs -> mcols Xs = mcols X -> length (mean Xs) = nrows Xs ->
  length y = nrows X -> triangular_sound upper_triangular solve_u -> exists out V, gp_get_posterior ker mean solve_l self' Xs = Ok (out, V).
Proof.
  intros CH (SL & SLt) W KI T Ws Cs Lm Ly SU.
  destruct (gp_alpha_solves ker k mean cholesky solve_l solve_u self self' X y CH SL SU W KI T) as (_ & a & Ea & (La & _) & _).
  unfold gp_train in T. rewrite (ker_mat_R (mcols X) ker k X X KI W W eq_refl eq_refl) in T. cbn [unwrap rbind] in T.
  change (mzip nadd (gram k X X) (scaled_identity (nrows X) (gp_noise self))) with (noisy k (gp_noise self) X) in T.
  destruct (cholesky (noisy k (gp_noise self) X)) as [L|] eqn:EC; [|discriminate].
  destruct (rvsub y (mean X)) as [d| |] eqn:Ed; cbn [rbind] in T; try discriminate.
  destruct (unwrap (solve_l L d)) as [x| |] eqn:Ex; cbn [rbind] in T; try discriminate. apply unwrap_Ok in Ex.
  destruct (unwrap (solve_u _ x)) as [al| |] eqn:Eu; cbn [rbind] in T; try discriminate. injection T as <-. cbn [gp_alpha] in Ea. injection Ea as ->.
  destruct (CH _ _ (noisy_wf _ _ _) (noisy_nrows _ _ _) EC) as (WL & NL & CL & TL & _). rewrite noisy_nrows in NL, CL.
  destruct (SL L d x WL TL Ex) as (Lx & Mx & Ux).
  assert (RL : regular L).
  { split; [exact WL|]. split; [congruence|]. intros v Lv Hv.
    assert (E : vadd x v = x).
    { apply Ux; [unfold vadd; rewrite map2_length; lia|]. rewrite mat_vec_vadd by congruence. rewrite Mx, Hv.
      assert (Ld : length d = nrows L) by (rewrite <- Mx; apply mat_vec_length'). apply (nth_ext _ _ 0 0); [unfold vadd; rewrite map2_length, repeat_length; lia|].
      unfold vadd. rewrite map2_length, repeat_length. intros i Hi. rewrite (map2_nth nadd d (repeat 0 (nrows L)) i 0 0 0) by (rewrite ?repeat_length; lia). rewrite nth_repeat. cbn. ring. }
    apply repeat_nth0; [exact Lv|]. intros i Hi. assert (E' : nth i (vadd x v) 0 = nth i x 0) by now rewrite E.
    unfold vadd in E'. rewrite (map2_nth nadd x v i 0 0 0) in E' by lia. cbn in E'. lra. }
  unfold gp_get_posterior. cbn [gp_train_mat gp_alpha gp_train_data].
  rewrite (ker_mat_R (mcols X) ker k Xs X KI Ws W Cs eq_refl). cbn [rbind]. unfold rmat_vec, rassert. change (mcols (gram k Xs X)) with (nrows X). rewrite La, Nat.eqb_refl. cbn [rbind].
  unfold rvadd, rassert. rewrite mat_vec_length', gram_nrows, Lm, Nat.eqb_refl. cbn [rbind].
  destruct (rmap_total (fun row => unwrap (solve_l L row)) (mrows (gram k Xs X))) as (vs & E).
  { intros r Hr. destruct (SLt L r TL RL) as (z & Ez); [|rewrite Ez; eexists; reflexivity].
    pose proof (gram_wf k Xs X) as Wg. unfold mwf in Wg. rewrite Forall_forall in Wg. rewrite (Wg r Hr). rewrite NL. reflexivity. }
  rewrite E. cbn [rbind]. rewrite (ker_mat_R (mcols X) ker k Xs Xs KI Ws Ws Cs Cs). cbn [rbind]. eexists _, _. reflexivity.
Qed.
