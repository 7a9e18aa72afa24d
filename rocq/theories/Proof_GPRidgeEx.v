(** Concrete case for [Props_GPRidge], and kernels that are symmetric only on points of the right dimension. *)
From Coq Require Import List Arith Lia Bool Reals Lra.
From Verif Require Import Base BaseLemmas Num Linalg LinalgR Spec_Calc CalcR Proof_KMeans MatR Model_Kernel Spec_Kernel Proof_Kernel Model_GP Spec_GP Proof_GP Proof_GPEx Proof_GPMono Spec_GPRidge.
Import ListNotations.
Local Open Scope R_scope.

Lemma se_sym n x x' : length x = n -> length x' = n -> se x x' = se x' x.
Proof.
  intros Lx Lx'. assert (E : sqdist x x' = sqdist x' x) by (unfold sqdist; rewrite Lx, Lx'; apply sumR_ext; intros; ring).
  unfold se. rewrite E. reflexivity.
Qed.
Lemma ridge_ex : cholesky_sound cholesky1 /\ (forall shape, triangular_sound shape triangular1) /\ mwf GX /\ kernel_is (mcols GX) (k_squared_exp 1 1) se /\
  psd_kernel (mcols GX) (k_squared_exp 1 1) /\ (forall x x', length x = mcols GX -> length x' = mcols GX -> se x x' = se x' x) /\
  (exists self', gp_train (k_squared_exp 1 1) (const_mean 1) cholesky1 triangular1 triangular1 (gp_new 0) GX [9] = (self', Ok tt)) /\
  (exists self', gp_train (k_squared_exp 1 1) (const_mean 1) cholesky1 triangular1 triangular1 (gp_new 3) GX [9] = (self', Ok tt)) /\
  points_in (mcols GX) [(2, [5]); (1, [0])] /\ norm2 se [(2, [1])] = 4.
Proof.
  split; [exact cholesky1_sound|]. split; [exact triangular1_sound|]. split; [exact GX_wf|]. split; [exact (se_is 1)|].
  split; [apply squared_exp_psd; lra|]. split; [exact (se_sym 1)|]. split; [exact gp_ex0|]. split; [destruct gp_ex as (s & E & _); exists s; exact E|].
  split; [repeat constructor|]. unfold norm2, value. cbn [fold_right fst snd]. rewrite se_11. ring.
Qed.

(** [k] on points of dimension [dim], 0 elsewhere. *)
Definition on_dim (dim : nat) (k : list R -> list R -> R) (x x' : list R) : R := if (length x =? dim)%nat && (length x' =? dim)%nat then k x x' else 0.
Lemma on_dim_eq dim k x x' : length x = dim -> length x' = dim -> on_dim dim k x x' = k x x'.
Proof. intros H H'. unfold on_dim. rewrite H, H', !Nat.eqb_refl. reflexivity. Qed.
Lemma on_dim_is dim ker k : kernel_is dim ker k -> kernel_is dim ker (on_dim dim k).
Proof. intros H x y Lx Ly. rewrite on_dim_eq by auto. auto. Qed.
Lemma on_dim_sym dim k : (forall x x', length x = dim -> length x' = dim -> k x x' = k x' x) -> forall x x', on_dim dim k x x' = on_dim dim k x' x.
Proof.
  intros H x x'. unfold on_dim. destruct (Nat.eqb_spec (length x) dim), (Nat.eqb_spec (length x') dim); cbn; auto.
Qed.
Lemma pt_len (X : matrix R) i : mwf X -> (i < nrows X)%nat -> length (pt X i) = mcols X. Proof. intros. apply mwf_row; auto. Qed.
Theorem posterior_variance_ge0' (ker : Kernel R) k dim s X w x : psd_kernel dim ker -> kernel_is dim ker k ->
  (forall x x', length x = dim -> length x' = dim -> k x x' = k x' x) ->
  mwf X -> mcols X = dim -> length x = dim -> 0 <= s -> solves k s X w (fun m => k x (pt X m)) -> 0 <= k x x - against k X w x.
Proof.
  intros P Hk Sy W C Lx Hs [Lw Sw].
  assert (E : forall j, (j < nrows X)%nat -> length (pt X j) = dim) by (intros; rewrite <- C; apply pt_len; auto).
  pose proof (posterior_variance_ge0 ker (on_dim dim k) dim s X w x P (on_dim_is _ _ _ Hk) (on_dim_sym dim k Sy) W C Lx Hs) as G.
  rewrite on_dim_eq in G by auto. unfold against in *. rewrite (sumR_ext (nrows X) _ (fun j => k x (pt X j) * nth j w 0)) in G by (intros; rewrite on_dim_eq; auto).
  apply G. split; [exact Lw|]. intros i Hi. rewrite on_dim_eq by auto. rewrite <- (Sw i Hi). f_equal. apply sumR_ext. intros j Hj. rewrite on_dim_eq by auto. reflexivity.
Qed.
Theorem variance_monotone' (ker : Kernel R) k mean cholesky solve_l solve_u : cholesky_sound cholesky -> triangular_sound lower_triangular solve_l -> triangular_sound upper_triangular solve_u ->
  forall (s1 s1' s2 s2' : GaussianProcess R) X1 X2 y1 y2 extra,
  mwf X1 -> mwf X2 -> mcols X2 = mcols X1 -> kernel_is (mcols X1) ker k -> (forall x x', length x = mcols X1 -> length x' = mcols X1 -> k x x' = k x' x) ->
  mrows X2 = mrows X1 ++ extra -> gp_noise s2 <= gp_noise s1 ->
  gp_train ker mean cholesky solve_l solve_u s1 X1 y1 = (s1', Ok tt) -> gp_train ker mean cholesky solve_l solve_u s2 X2 y2 = (s2', Ok tt) ->
  forall Xs o1 V1 o2 V2, mwf Xs -> mcols Xs = mcols X1 -> gp_get_posterior ker mean solve_l s1' Xs = Ok (o1, V1) -> gp_get_posterior ker mean solve_l s2' Xs = Ok (o2, V2) ->
  forall i, (i < nrows Xs)%nat -> entry V2 i i <= entry V1 i i.
Proof.
  intros H1 H2 H3 s1 s1' s2 s2' X1 X2 y1 y2 extra W1 W2 C Hk Sy. 
  exact (variance_monotone ker (on_dim (mcols X1) k) mean cholesky solve_l solve_u H1 H2 H3 (on_dim_sym _ k Sy) s1 s1' s2 s2' X1 X2 y1 y2 extra W1 W2 C (on_dim_is _ _ _ Hk)).
Qed.
Theorem gp_posterior' (ker : Kernel R) k mean cholesky solve_l solve_u (self self' : GaussianProcess R) X y :
  cholesky_sound cholesky -> triangular_sound lower_triangular solve_l -> mwf X -> kernel_is (mcols X) ker k ->
  gp_train ker mean cholesky solve_l solve_u self X y = (self', Ok tt) ->
  forall Xs out V, mwf Xs -> mcols Xs = mcols X -> gp_get_posterior ker mean solve_l self' Xs = Ok (out, V) ->
  gp_predict ker mean self' Xs = Ok out /\ mwf V /\ nrows V = nrows Xs /\ mcols V = nrows Xs /\
  (forall i j w, (i < nrows Xs)%nat -> (j < nrows Xs)%nat -> solves k (gp_noise self) X w (fun m => k (pt Xs j) (pt X m)) ->
     entry V i j = k (pt Xs i) (pt Xs j) - against k X w (pt Xs i)) /\
  (forall i, (i < nrows Xs)%nat -> entry V i i <= k (pt Xs i) (pt Xs i)) /\
  ((forall x x', length x = mcols X -> length x' = mcols X -> k x x' = k x' x) -> forall i j, (i < nrows Xs)%nat -> (j < nrows Xs)%nat -> entry V i j = entry V j i).
Proof.
  intros H1 H2 W Hk HT Xs out V WX CX HP.
  destruct (gp_posterior ker k mean cholesky solve_l solve_u self self' X y H1 H2 W Hk HT Xs out V WX CX HP) as (E1 & E2 & E3 & E4 & E5 & E6 & _).
  repeat (split; [assumption|]). intros Sy.
  destruct (gp_posterior ker (on_dim (mcols X) k) mean cholesky solve_l solve_u self self' X y H1 H2 W (on_dim_is _ _ _ Hk) HT Xs out V WX CX HP) as (_ & _ & _ & _ & _ & _ & E7).
  exact (E7 (on_dim_sym _ k Sy)).
Qed.
