(** Lemmas for [Props_GP]. *)
From Coq Require Import List Arith Lia Bool Reals Lra.
From Verif Require Import Base BaseLemmas Num NumFn Linalg LinalgR Spec_Calc CalcR MatR Proof_KMeans Proof_Cost Model_Optim Proof_Optim Proof_Optim2 Proof_Toolkit
  Model_Regression Proof_Regression Model_Kernel Spec_Kernel Proof_PSD Proof_Kernel Model_GP Spec_GP.
Import ListNotations.
Local Open Scope R_scope.

Definition gram (k : list R -> list R -> R) (A B : matrix R) : matrix R := Mat (map (fun r => map (k r) (mrows B)) (mrows A)) (nrows B).
Lemma gram_wf k A B : mwf (gram k A B).
Proof. unfold mwf, gram. cbn [mrows mcols]. apply Forall_forall. intros r H. apply in_map_iff in H. destruct H as [x [<- _]]. now rewrite map_length. Qed.
Lemma gram_nrows k A B : nrows (gram k A B) = nrows A.
Proof. unfold nrows, gram. cbn [mrows]. apply map_length. Qed.
Lemma gram_entry k A B i j : (i < nrows A)%nat -> (j < nrows B)%nat -> entry (gram k A B) i j = k (pt A i) (pt B j).
Proof.
  intros Hi Hj. unfold entry, gram, pt. cbn [mrows]. rewrite (nth_map (fun r => map (k r) (mrows B)) _ _ _ []) by auto.
  now rewrite (nth_map (k (nth i (mrows A) [])) _ _ _ []).
Qed.
Lemma ker_mat_R dim ker k A B : kernel_is dim ker k -> mwf A -> mwf B -> mcols A = dim -> mcols B = dim -> ker_mat ker A B = Ok (gram k A B).
Proof.
  intros Hk WA WB CA CB. unfold ker_mat. rewrite CA, CB, Nat.eqb_refl. cbn [negb].
  rewrite (rmap_ok _ (fun r => map (k r) (mrows B))).
  - reflexivity.
  - intros r Ir. apply rmap_ok. intros s Is. unfold mwf in *. rewrite Forall_forall in WA, WB. apply Hk; [now rewrite WA|now rewrite WB].
Qed.
Lemma scaled_identity_wf n (c : R) : mwf (scaled_identity n c).
Proof. unfold mwf, scaled_identity. cbn [mrows mcols]. apply Forall_forall. intros r H. apply in_map_iff in H. destruct H as [i [<- _]]. now rewrite map_length, seq_length. Qed.
Lemma scaled_identity_nrows n (c : R) : nrows (scaled_identity n c) = n.
Proof. unfold nrows, scaled_identity. cbn [mrows]. now rewrite map_length, seq_length. Qed.
Lemma scaled_identity_entry n (c : R) i j : (i < n)%nat -> (j < n)%nat -> entry (scaled_identity n c) i j = if (i =? j)%nat then c else 0.
Proof.
  intros Hi Hj. unfold entry, scaled_identity. cbn [mrows]. rewrite (nth_map_seq _ _ _ []) by auto. rewrite (nth_map_seq _ _ _ 0) by auto.
  cbn. destruct (i =? j)%nat; ring.
Qed.
(** The noisy Gram matrix. *)
Definition noisy k s X := mzip Rplus (gram k X X) (scaled_identity (nrows X) s).
Lemma noisy_wf k s X : mwf (noisy k s X).
Proof. apply mzip_wf; [apply gram_wf|apply scaled_identity_wf|reflexivity]. Qed.
Lemma noisy_nrows k s X : nrows (noisy k s X) = nrows X.
Proof. unfold noisy. rewrite mzip_nrows, gram_nrows, scaled_identity_nrows. lia. Qed.
Lemma noisy_mv k s X v i : length v = nrows X -> (i < nrows X)%nat ->
  nth i (mat_vec (noisy k s X) v) 0 = sumR (nrows X) (fun j => k (pt X i) (pt X j) * nth j v 0) + s * nth i v 0.
Proof.
  intros L Hi. rewrite mat_vec_nth; [|apply noisy_wf|exact L|now rewrite noisy_nrows]. change (mcols (noisy k s X)) with (nrows X).
  rewrite (sumR_ext _ _ (fun j => k (pt X i) (pt X j) * nth j v 0 + (if (i =? j)%nat then s * nth j v 0 else 0))).
  - rewrite sumR_plus, (sumR_pick _ (fun j => s * nth j v 0)); auto.
  - intros j Hj. unfold noisy. rewrite mzip_entry; auto using gram_wf, scaled_identity_wf.
    + rewrite gram_entry, scaled_identity_entry by auto. destruct (i =? j)%nat; ring.
    + now rewrite gram_nrows.
    + now rewrite scaled_identity_nrows.
Qed.
Lemma solves_mv k s X v d : length d = nrows X -> (solves k s X v (fun i => nth i d 0) <-> length v = nrows X /\ mat_vec (noisy k s X) v = d).
Proof.
  intros Ld. split; intros [L H]; split; auto.
  - apply vec_ext; rewrite mat_vec_length', noisy_nrows; [lia|]. intros i Hi. rewrite noisy_mv by auto. now apply H.
  - intros i Hi. rewrite <- noisy_mv by auto. now rewrite H.
Qed.
Lemma unwrap_Ok {A} (r : res A) a : unwrap r = Ok a -> r = Ok a.
Proof. destruct r; cbn; intros; try discriminate. auto. Qed.

Lemma transpose_upper (L : matrix R) : mwf L -> lower_triangular L -> upper_triangular (transpose L).
Proof.
  intros W H i j Hij Hi. rewrite transpose_nrows in Hi. destruct (Nat.lt_ge_cases j (nrows L)) as [Hj|Hj].
  - change (entry (transpose L) i j = 0). rewrite transpose_entry by lia. unfold entry. apply H; lia.
  - apply nth_overflow. assert (K : In (nth i (mrows (transpose L)) []) (mrows (transpose L))) by (apply nth_In; change (i < nrows (transpose L))%nat; now rewrite transpose_nrows).
    pose proof (transpose_wf L) as Q. unfold mwf in Q. rewrite Forall_forall in Q. rewrite (Q _ K). rewrite transpose_mcols. lia.
Qed.
Section Trained.
  Variables (ker : Kernel R) (k : list R -> list R -> R) (mean : MeanFunc R) (cholesky : matrix R -> option (matrix R))
    (solve_l solve_u : matrix R -> list R -> res (list R)) (self self' : GaussianProcess R) (X : matrix R) (y : list R).
  Hypothesis Ch : cholesky_sound cholesky.
  Hypothesis Tl : triangular_sound lower_triangular solve_l.
  Hypothesis Tu : triangular_sound upper_triangular solve_u.
  Hypothesis W : mwf X.
  Hypothesis Hk : kernel_is (mcols X) ker k.
  Hypothesis T : gp_train ker mean cholesky solve_l solve_u self X y = (self', Ok tt).

  Lemma gp_train_inv : length y = length (mean X) /\ exists L a, cholesky (noisy k (gp_noise self) X) = Some L /\
    gp_alpha self' = Some a /\ gp_train_mat self' = Some L /\ gp_train_data self' = Some X /\
    exists x, solve_l L (vsub y (mean X)) = Ok x /\ solve_u (transpose L) x = Ok a.
  Proof.
    revert T. unfold gp_train. rewrite (ker_mat_R (mcols X) ker k) by auto. cbn [unwrap rbind].
    change (mzip nadd (gram k X X) (scaled_identity (nrows X) (gp_noise self))) with (noisy k (gp_noise self) X).
    destruct (cholesky _) as [L|] eqn:EL; [|discriminate].
    destruct (rvsub y (mean X)) as [d| |] eqn:Ed; cbn [rbind]; try discriminate. apply rvsub_Ok in Ed. destruct Ed as [Ly ->].
    destruct (unwrap (solve_l L _)) as [x| |] eqn:Ex; cbn [rbind]; try discriminate. apply unwrap_Ok in Ex.
    destruct (unwrap (solve_u _ x)) as [a| |] eqn:Ea; cbn [rbind]; try discriminate. apply unwrap_Ok in Ea.
    intros H. apply (f_equal fst) in H. cbn [fst] in H. subst self'. split; auto. exists L, a. repeat split; auto. exists x. auto.
  Qed.
  Lemma noisy_square : nrows (noisy k (gp_noise self) X) = mcols (noisy k (gp_noise self) X).
  Proof. now rewrite noisy_nrows. Qed.

  Theorem gp_alpha_solves : length y = length (mean X) /\ exists a, gp_alpha self' = Some a /\
    solves k (gp_noise self) X a (fun i => nth i y 0 - nth i (mean X) 0) /\
    forall a', solves k (gp_noise self) X a' (fun i => nth i y 0 - nth i (mean X) 0) -> a' = a.
  Proof.
    destruct gp_train_inv as [Ly [L [a [EL [Ea [_ [_ [x [Ex Eu]]]]]]]]]. split; auto. exists a. split; auto.
    destruct (Ch _ _ (noisy_wf _ _ _) noisy_square EL) as [WL [RL [CL [TL AL]]]]. rewrite noisy_nrows in *.
    destruct (Tl _ _ _ WL TL Ex) as [Lx [Mx Ux]]. destruct (Tu _ _ _ (transpose_wf L) (transpose_upper L WL TL) Eu) as [La [Ma Ua]]. rewrite transpose_mcols in *.
    assert (Ld : length (vsub y (mean X)) = nrows X).
    { rewrite <- Mx, mat_vec_length'. auto. }
    assert (En : forall i, nth i (vsub y (mean X)) 0 = nth i y 0 - nth i (mean X) 0).
    { clear - Ly. revert Ly. generalize (mean X). induction y as [|b l IH]; intros [|c m] E [|i]; try discriminate; cbn; try lra. apply IH. now injection E. }
    assert (Sv : forall v, solves k (gp_noise self) X v (fun i => nth i y 0 - nth i (mean X) 0) <-> length v = nrows X /\ mat_vec (noisy k (gp_noise self) X) v = vsub y (mean X)).
    { intros v. rewrite <- solves_mv by auto. unfold solves. split; intros [H1 H2]; split; auto; intros i Hi; rewrite H2 by auto; now rewrite En. }
    split.
    - apply Sv. split; [lia|]. rewrite <- AL by lia. now rewrite Ma.
    - intros a' H. apply Sv in H. destruct H as [La' Ha']. rewrite <- AL in Ha' by auto.
      apply Ua. lia. apply Ux; [rewrite mat_vec_length', transpose_nrows; auto|exact Ha'].
  Qed.

  Lemma rvadd_R (u v : list R) : length u = length v -> rvadd u v = Ok (vadd u v).
  Proof. intros E. unfold rvadd, rassert. now rewrite E, Nat.eqb_refl. Qed.
  Lemma vadd_nth (u v : list R) i : length u = length v -> nth i (vadd u v) 0 = nth i u 0 + nth i v 0.
  Proof. revert v i. induction u as [|b u IH]; intros [|c v] [|i] E; try discriminate; cbn; try lra. apply IH. now injection E. Qed.
  Lemma gram_mv Xs a i : length a = nrows X -> (i < nrows Xs)%nat -> nth i (mat_vec (gram k Xs X) a) 0 = against k X a (pt Xs i).
  Proof.
    intros La Hi. rewrite mat_vec_nth; [|apply gram_wf|exact La|now rewrite gram_nrows]. apply sumR_ext. intros j Hj. now rewrite gram_entry.
  Qed.
  Theorem gp_predict_mean Xs : mwf Xs -> mcols Xs = mcols X -> length (mean Xs) = nrows Xs ->
    exists a out, gp_alpha self' = Some a /\ gp_predict ker mean self' Xs = Ok out /\ length out = nrows Xs /\
      forall i, (i < nrows Xs)%nat -> nth i out 0 = nth i (mean Xs) 0 + against k X a (pt Xs i).
  Proof.
    intros Ws Cs Lm. destruct gp_alpha_solves as [_ [a [Ea [[La _] _]]]]. destruct gp_train_inv as [_ [L [a0 [_ [_ [_ [ED _]]]]]]].
    exists a. unfold gp_predict. rewrite Ea, ED. rewrite (ker_mat_R (mcols X) ker k) by auto. cbn [rbind].
    rewrite rmat_vec_eq by (cbn; auto). cbn [rbind].
    assert (Lv : length (mat_vec (gram k Xs X) a) = nrows Xs) by (now rewrite mat_vec_length', gram_nrows).
    rewrite rvadd_R by lia. eexists. split; [reflexivity|]. split; [reflexivity|]. split. { rewrite vadd_len'; lia. }
    intros i Hi. rewrite vadd_nth by lia. now rewrite gram_mv.
  Qed.
  Theorem gp_interpolates : gp_noise self = 0 -> length (mean X) = nrows X -> gp_predict ker mean self' X = Ok y.
  Proof.
    intros Z Lm. destruct (gp_predict_mean X W eq_refl Lm) as [a [out [Ea [P [Lo H]]]]]. rewrite P. f_equal.
    destruct gp_alpha_solves as [Ly [a0 [Ea0 [[_ Sa] _]]]]. rewrite Ea in Ea0. injection Ea0 as <-.
    apply vec_ext; [lia|]. intros i Hi. rewrite H by lia. unfold against. rewrite Z in Sa. specialize (Sa i ltac:(lia)). lra.
  Qed.

  Lemma rmap_inv {A B} (f : A -> res B) l r : rmap f l = Ok r -> Forall2 (fun a b => f a = Ok b) l r.
  Proof.
    revert r. induction l as [|a l IH]; intros r H; cbn in H. { injection H as <-. constructor. }
    destruct (f a) as [b| |] eqn:E; try discriminate. cbn in H. destruct (rmap f l) as [bs| |] eqn:El; try discriminate. cbn in H. injection H as <-.
    constructor; auto.
  Qed.
  Lemma Forall2_nth' {A B} (P : A -> B -> Prop) l r i da db : Forall2 P l r -> (i < length l)%nat -> P (nth i l da) (nth i r db).
  Proof. intros H. revert i. induction H as [|a b l r Hab H IH]; intros [|i] Hi; cbn in *; try lia; auto. apply IH. lia. Qed.
  Lemma Forall2_len {A B} (P : A -> B -> Prop) l r : Forall2 P l r -> length l = length r.
  Proof. induction 1; cbn; auto. Qed.

  Theorem gp_posterior Xs out V : mwf Xs -> mcols Xs = mcols X -> gp_get_posterior ker mean solve_l self' Xs = Ok (out, V) ->
    gp_predict ker mean self' Xs = Ok out /\ mwf V /\ nrows V = nrows Xs /\ mcols V = nrows Xs /\
    (forall i j w, (i < nrows Xs)%nat -> (j < nrows Xs)%nat -> solves k (gp_noise self) X w (fun m => k (pt Xs j) (pt X m)) ->
       entry V i j = k (pt Xs i) (pt Xs j) - against k X w (pt Xs i)) /\
    (forall i, (i < nrows Xs)%nat -> entry V i i <= k (pt Xs i) (pt Xs i)) /\
    ((forall x x', k x x' = k x' x) -> forall i j, (i < nrows Xs)%nat -> (j < nrows Xs)%nat -> entry V i j = entry V j i).
  Proof.
    intros Ws Cs H. destruct gp_train_inv as [_ [L [a [EL [Ea [EM [ED _]]]]]]].
    destruct (Ch _ _ (noisy_wf _ _ _) noisy_square EL) as [WL [RL [CL [TL AL]]]]. rewrite noisy_nrows in *.
    unfold gp_get_posterior in H. unfold gp_predict. rewrite EM, Ea, ED in H. rewrite Ea, ED.
    rewrite (ker_mat_R (mcols X) ker k) in H |- * by auto. cbn [rbind] in H |- *.
    destruct (rmat_vec _ a) as [pm| |] eqn:Epm; try discriminate. cbn [rbind] in H |- *.
    destruct (rvadd (mean Xs) pm) as [o| |] eqn:Eo; try discriminate. cbn [rbind] in H.
    destruct (rmap _ _) as [vr| |] eqn:Ev; try discriminate. cbn [rbind] in H.
    rewrite (ker_mat_R (mcols X) ker k) in H by auto. cbn [rbind] in H. apply Ok_inj in H.
    pose proof (f_equal fst H) as H1. pose proof (f_equal snd H) as H2. cbn [fst snd] in H1, H2. subst o. split; auto. clear H.
    apply rmap_inv in Ev. cbn [mrows gram] in Ev. pose proof (Forall2_len _ _ _ Ev) as Lvr. rewrite map_length in Lvr. fold (nrows Xs) in Lvr.
    set (VM := Mat vr (mcols (gram k Xs X))) in *.
    assert (Row : forall i, (i < nrows Xs)%nat -> length (nth i vr []) = nrows X /\ mat_vec L (nth i vr []) = map (k (pt Xs i)) (mrows X) /\
       forall x', length x' = nrows X -> mat_vec L x' = map (k (pt Xs i)) (mrows X) -> x' = nth i vr []).
    { intros i Hi. pose proof (Forall2_nth' _ _ _ i [] [] Ev ltac:(now rewrite map_length)) as E. cbv beta in E.
      rewrite (nth_map (fun r => map (k r) (mrows X)) _ _ _ []) in E by auto. fold (pt Xs i) in E.
      apply unwrap_Ok in E. destruct (Tl _ _ _ WL TL E) as [E1 [E2 E3]]. rewrite CL in *. auto. }
    assert (WV : mwf VM).
    { unfold mwf, VM. cbn [mrows mcols gram]. apply Forall_forall. intros r Ir. apply (In_nth _ _ []) in Ir. destruct Ir as [i [Hi <-]]. apply Row. lia. }
    assert (NV : nrows VM = nrows Xs) by (change (nrows VM) with (length vr); lia).
    assert (WM : mwf (mat_mul VM (transpose VM))) by apply mat_mul_wf.
    assert (CM : mcols (mat_mul VM (transpose VM)) = nrows Xs) by (cbn [mat_mul mcols transpose]; auto).
    assert (Ent : forall i j, (i < nrows Xs)%nat -> (j < nrows Xs)%nat -> entry V i j = k (pt Xs i) (pt Xs j) - dot (nth i vr []) (nth j vr [])).
    { intros i j Hi Hj. rewrite <- H2. rewrite (mzip_entry Rminus).
      - rewrite gram_entry by auto. f_equal. rewrite mat_mul_entry.
        + rewrite (dot_sumR (nrows X)) by (apply Row; auto). apply sumR_ext. intros m Hm. rewrite transpose_entry.
          * reflexivity.
          * exact Hm.
          * rewrite NV. exact Hj.
        + exact WV.
        + apply transpose_nrows.
        + rewrite NV. exact Hi.
        + rewrite transpose_mcols, NV. exact Hj.
      - apply gram_wf.
      - exact WM.
      - now rewrite CM.
      - now rewrite gram_nrows.
      - rewrite mat_mul_nrows, NV. exact Hi.
      - exact Hj. }
    assert (WVV : mwf V). { rewrite <- H2. apply mzip_wf; auto using gram_wf. }
    split; auto. split. { rewrite <- H2, (mzip_nrows Rminus), gram_nrows, mat_mul_nrows. lia. } split. { rewrite <- H2. reflexivity. }
    split; [|split].
    - intros i j w Hi Hj Sw. rewrite Ent by auto. f_equal.
      assert (Lkj : length (map (k (pt Xs j)) (mrows X)) = nrows X) by apply map_length.
      assert (Sw' : length w = nrows X /\ mat_vec (noisy k (gp_noise self) X) w = map (k (pt Xs j)) (mrows X)).
      { apply solves_mv; auto. destruct Sw as [Lw Sw]. split; auto. intros m Hm. rewrite Sw by auto.
        now rewrite (nth_map (k (pt Xs j)) _ _ _ []). }
      destruct Sw' as [Lw Mw]. rewrite <- AL in Mw by auto.
      destruct (Row j Hj) as [Lj [_ Uj]]. destruct (Row i Hi) as [Li [Mi _]].
      assert (Ej : mat_vec (transpose L) w = nth j vr []).
      { apply Uj; auto. rewrite mat_vec_length', transpose_nrows. auto. }
      rewrite <- Ej. rewrite dot_comm. rewrite <- dot_transpose; auto; try lia. rewrite Mi.
      unfold against. rewrite (dot_sumR (nrows X)); auto; [|now rewrite map_length].
      apply sumR_ext. intros m Hm. rewrite (nth_map (k (pt Xs i)) _ _ _ []) by auto. unfold pt. ring.
    - intros i Hi. rewrite Ent by auto. pose proof (dot_ge0 (nth i vr [])). lra.
    - intros Sy i j Hi Hj. rewrite !Ent by auto. now rewrite (Sy (pt Xs i)), dot_comm.
  Qed.
End Trained.

Lemma sumR_S n f : sumR (S n) f = sumR n f + f n. Proof. reflexivity. Qed.
Theorem posterior_variance_ge0 (ker : Kernel R) k dim s X w x : psd_kernel dim ker -> kernel_is dim ker k -> (forall x x', k x x' = k x' x) ->
  mwf X -> mcols X = dim -> length x = dim -> 0 <= s -> solves k s X w (fun m => k x (pt X m)) -> 0 <= k x x - against k X w x.
Proof.
  intros P Hk Sy W C Lx Hs [Lw Sw]. set (n := nrows X) in *.
  destruct (P (S n) (fun i => if (i =? n)%nat then x else pt X i)) as [K [EK Q]].
  { intros i Hi. destruct (Nat.eqb_spec i n); auto. rewrite <- C. apply mwf_row; auto. unfold n in *. lia. }
  assert (Lp : forall i, (i < n)%nat -> length (pt X i) = dim) by (intros i Hi; rewrite <- C; apply mwf_row; auto).
  assert (E1 : forall i j, (i < n)%nat -> (j < n)%nat -> K i j = k (pt X i) (pt X j)).
  { intros i j Hi Hj. specialize (EK i j ltac:(lia) ltac:(lia)). destruct (Nat.eqb_spec i n); [lia|]. destruct (Nat.eqb_spec j n); [lia|].
    rewrite Hk in EK by auto. now injection EK. }
  assert (E2 : forall i, (i < n)%nat -> K i n = k x (pt X i)).
  { intros i Hi. specialize (EK i n ltac:(lia) ltac:(lia)). destruct (Nat.eqb_spec i n); [lia|]. rewrite Nat.eqb_refl in EK. rewrite Hk in EK by auto. rewrite Sy. now injection EK. }
  assert (E2' : forall i, (i < n)%nat -> K n i = k x (pt X i)).
  { intros i Hi. specialize (EK n i ltac:(lia) ltac:(lia)). destruct (Nat.eqb_spec i n); [lia|]. rewrite Nat.eqb_refl in EK. rewrite Hk in EK by auto. now injection EK. }
  assert (E3 : K n n = k x x).
  { specialize (EK n n ltac:(lia) ltac:(lia)). rewrite Nat.eqb_refl in EK. rewrite Hk in EK by auto. now injection EK. }
  specialize (Q (fun i => if (i =? n)%nat then 1 else - nth i w 0)). change (0 <= qf (S n) K (fun i => if (i =? n)%nat then 1 else - nth i w 0)) in Q.
  rewrite qf_S in Q by (intros; rewrite E2, E2'; auto). rewrite Nat.eqb_refl, E3 in Q.
  rewrite (qf_ext n K (fun i j => k (pt X i) (pt X j)) _ (fun i => - nth i w 0)) in Q; auto.
  2:{ intros i Hi. destruct (Nat.eqb_spec i n); auto; lia. }
  rewrite (sumR_ext n _ (fun i => - 1 * (k x (pt X i) * nth i w 0))) in Q.
  2:{ intros i Hi. rewrite E2 by auto. destruct (Nat.eqb_spec i n); [lia|]. ring. }
  rewrite sumR_scal in Q. unfold against. fold n.
  assert (Eq : qf n (fun i j => k (pt X i) (pt X j)) (fun i => - nth i w 0) = sumR n (fun i => k x (pt X i) * nth i w 0) - s * sumR n (fun i => nth i w 0 * nth i w 0)).
  { unfold qf. rewrite <- sumR_scal, <- sumR_minus. apply sumR_ext. intros i Hi.
    rewrite (sumR_ext n _ (fun j => nth i w 0 * (k (pt X i) (pt X j) * nth j w 0))) by (intros; ring). rewrite sumR_scal.
    specialize (Sw i Hi). replace (sumR n (fun j => k (pt X i) (pt X j) * nth j w 0)) with (k x (pt X i) - s * nth i w 0) by lra. ring. }
  rewrite Eq in Q. assert (0 <= sumR n (fun i => nth i w 0 * nth i w 0)) by (apply sumR_ge0; intros; nra). nra.
Qed.
Theorem gp_train_failed {F} {N : Num F} ker mean ch sl su (self : GaussianProcess F) X y self' r :
  gp_train ker mean ch sl su self X y = (self', r) -> r <> Ok tt -> self' = self.
Proof.
  unfold gp_train. destruct (rbind _ _) as [[m a]| |]; intros H Hr; injection H; intros <- <-; congruence.
Qed.
Theorem gp_predict_width {F} {N : Num F} ker mean (self : GaussianProcess F) a D X : gp_alpha self = Some a -> gp_train_data self = Some D ->
  mcols X <> mcols D -> gp_predict ker mean self X = Err InvalidState.
Proof. intros E1 E2 H. unfold gp_predict. rewrite E1, E2. unfold ker_mat. apply Nat.eqb_neq in H. now rewrite H. Qed.
