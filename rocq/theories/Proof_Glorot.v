(** Lemmas for [Props_Glorot]: the starting weights of a linear layer. *)
From Coq Require Import List Arith Lia Bool Reals Lra.
From Verif Require Import Base BaseLemmas Num NumFn Linalg LinalgR Spec_Calc CalcR MatR Model_Toolkit Model_NNet Spec_NNet Spec_DBSCAN2
  Proof_NNet Proof_NNet2 Proof_NNet3 Proof_NNet4 Proof_NNet5 Spec_Glorot.
Import ListNotations.
Local Open Scope R_scope.

Section Mean.
  Variables (m : nat) (E : ((nat -> R) -> R) -> R).
  Hypothesis HE : standard_draws m E.
  Lemma E_ext f g : (forall z, f z = g z) -> E f = E g. Proof. apply HE. Qed.
  Lemma E_lin f g a b : E (fun z => a * f z + b * g z) = a * E f + b * E g. Proof. apply HE. Qed.
  Lemma E_scal f a : E (fun z => a * f z) = a * E f.
  Proof. rewrite (E_ext _ (fun z => a * f z + 0 * f z)) by (intros; ring). rewrite E_lin. ring. Qed.
  Lemma E_sum n (f : nat -> (nat -> R) -> R) : E (fun z => sumR n (fun k => f k z)) = sumR n (fun k => E (f k)).
  Proof.
    induction n as [|n IH]; cbn [sumR].
    - rewrite (E_ext _ (fun z => 0 * 1)) by (intros; ring). rewrite (E_scal (fun _ => 1)). ring.
    - rewrite <- IH. rewrite (E_ext _ (fun z => 1 * sumR n (fun k => f k z) + 1 * f n z)) by (intros; ring). rewrite E_lin. ring.
  Qed.
  Lemma E_form n (a : nat -> R) (u : nat -> nat) : (forall r, (r < n)%nat -> (u r < m)%nat) -> E (fun z => sumR n (fun r => a r * z (u r))) = 0.
  Proof.
    intros H. rewrite (E_sum n (fun r z => a r * z (u r))). apply sumR_zero. intros r Hr. rewrite (E_scal (fun z => z (u r))). destruct HE as (_ & _ & _ & H1 & _). rewrite H1 by auto. ring.
  Qed.
  Lemma sum_prod n (f g : nat -> R) : sumR n f * sumR n g = sumR n (fun r => sumR n (fun q => f r * g q)).
  Proof. rewrite Rmult_comm, <- (sumR_scal n (sumR n g) f). apply sumR_ext. intros r Hr. rewrite Rmult_comm, <- (sumR_scal n (f r) g). reflexivity. Qed.
  Lemma E_forms n (a b : nat -> R) (u v : nat -> nat) : (forall r, (r < n)%nat -> (u r < m)%nat /\ (v r < m)%nat) ->
    E (fun z => sumR n (fun r => a r * z (u r)) * sumR n (fun q => b q * z (v q))) = sumR n (fun r => sumR n (fun q => a r * b q * (if (u r =? v q)%nat then 1 else 0))).
  Proof.
    intros H. rewrite (E_ext _ (fun z => sumR n (fun r => sumR n (fun q => (a r * b q) * (z (u r) * z (v q)))))).
    2:{ intros z. rewrite sum_prod. apply sumR_ext. intros r Hr. apply sumR_ext. intros q Hq. ring. }
    rewrite (E_sum n (fun r z => sumR n (fun q => (a r * b q) * (z (u r) * z (v q))))). apply sumR_ext. intros r Hr.
    rewrite (E_sum n (fun q z => (a r * b q) * (z (u r) * z (v q)))). apply sumR_ext. intros q Hq. rewrite (E_scal (fun z => z (u r) * z (v q))).
    destruct HE as (_ & _ & _ & _ & H2). rewrite H2 by (apply H; auto). reflexivity.
  Qed.
  Lemma E_forms_apart n (a b : nat -> R) (u v : nat -> nat) : (forall r, (r < n)%nat -> (u r < m)%nat /\ (v r < m)%nat) ->
    (forall r q, (r < n)%nat -> (q < n)%nat -> u r <> v q) -> E (fun z => sumR n (fun r => a r * z (u r)) * sumR n (fun q => b q * z (v q))) = 0.
  Proof.
    intros H D. rewrite E_forms by auto. apply sumR_zero. intros r Hr. apply sumR_zero. intros q Hq. rewrite (proj2 (Nat.eqb_neq _ _) (D r q Hr Hq)). ring.
  Qed.
  Lemma E_forms_same n (a b : nat -> R) (u : nat -> nat) : (forall r, (r < n)%nat -> (u r < m)%nat) ->
    (forall r q, (r < n)%nat -> (q < n)%nat -> u r = u q -> r = q) -> E (fun z => sumR n (fun r => a r * z (u r)) * sumR n (fun q => b q * z (u q))) = sumR n (fun r => a r * b r).
  Proof.
    intros H D. rewrite E_forms by (intros r Hr; split; auto). apply sumR_ext. intros r Hr. rewrite (sumR_single n _ r Hr).
    - rewrite Nat.eqb_refl. ring.
    - intros q Hq Nq. rewrite (proj2 (Nat.eqb_neq (u r) (u q))); [ring|]. intros K. apply Nq. symmetry. now apply D.
  Qed.
End Mean.

(** ** The weights *)
Definition var_of (i o : nat) : R := 2 / INR (i + o).
Lemma sd_sq (l : Linear) : (0 < ln_input_size l + ln_output_size l)%nat -> linear_default_sd (F := R) l * linear_default_sd l = var_of (ln_input_size l) (ln_output_size l).
Proof.
  intros H. unfold linear_default_sd, var_of. cbn [nsqrt NumR ndiv nofnat]. change (@nofnat R NumR) with INR. change (@ndiv R NumR) with Rdiv. change (INR 2) with (1 + 1). replace (1 + 1) with 2 by ring. apply sqrt_sqrt.
  apply Rlt_le, Rdiv_lt_0_compat; [lra|]. now apply lt_0_INR.
Qed.
Lemma default_len (l : Linear) z : length (linear_default_params (F := R) l z) = (ln_input_size l * ln_output_size l)%nat.
Proof. unfold linear_default_params. now rewrite map_length, seq_length. Qed.
Lemma default_nth (l : Linear) z k : (k < ln_input_size l * ln_output_size l)%nat -> nth k (linear_default_params l z) 0 = linear_default_sd l * z k.
Proof. intros H. unfold linear_default_params. rewrite nth_map_seq by auto. cbn. ring. Qed.
Theorem weights_moments E (l : Linear) m : standard_draws m E -> (ln_input_size l * ln_output_size l <= m)%nat ->
  (forall z, length (linear_default_params (F := R) l z) = (ln_input_size l * ln_output_size l)%nat) /\
  forall k, (k < ln_input_size l * ln_output_size l)%nat -> E (fun z => nth k (linear_default_params l z) 0) = 0 /\
    forall k', (k' < ln_input_size l * ln_output_size l)%nat -> E (fun z => nth k (linear_default_params l z) 0 * nth k' (linear_default_params l z) 0) =
      if (k =? k')%nat then 2 / INR (ln_input_size l + ln_output_size l) else 0.
Proof.
  intros HE Hm. split; [intros; apply default_len|]. intros k Hk. split.
  - rewrite (E_ext m E HE _ (fun z => linear_default_sd l * z k)) by (intros; now apply default_nth). rewrite (E_scal m E HE (fun z => z k)). destruct HE as (_ & _ & _ & H1 & _). rewrite H1 by lia. ring.
  - intros k' Hk'. rewrite (E_ext m E HE _ (fun z => (linear_default_sd l * linear_default_sd l) * (z k * z k'))) by (intros; rewrite !default_nth by auto; ring).
    rewrite (E_scal m E HE (fun z => z k * z k')), sd_sq by nia. unfold var_of. destruct HE as (_ & _ & _ & _ & H2). rewrite H2 by lia. destruct (k =? k')%nat; ring.
Qed.

(** ** Outputs *)
Definition ext_in (b : bool) (x : list R) (r : nat) : R := if b then nth r (1 :: x) 0 else nth r x 0.
Lemma lin_of (i o : nat) (b : bool) : to_layer (F := R) (KLinear i o b) = linear_layer (if b then linear_new i o else linear_without_bias i o).
Proof. destruct b; reflexivity. Qed.
Lemma lin_in i o b : ln_input_size (lin_l i o b) = (bias_rows b + i)%nat.
Proof. destruct b; cbn; lia. Qed.
Lemma lin_out i o b : ln_output_size (lin_l i o b) = o.
Proof. destruct b; reflexivity. Qed.
Lemma row_form i o b z x j : (j < o)%nat -> length x = i ->
  nth j (net_row [KLinear i o b] (linear_default_params (lin_l i o b) z) x) 0 = sumR (bias_rows b + i) (fun r => (linear_default_sd (lin_l i o b) * ext_in b x r) * z (r * o + j)%nat).
Proof.
  intros Hj Lx. cbn [net_row]. rewrite nth_map_seq by auto.
  assert (K : forall r, (r < bias_rows b + i)%nat -> nth (r * o + j) (linear_default_params (lin_l i o b) z) 0 = linear_default_sd (lin_l i o b) * z (r * o + j)%nat).
  { intros r Hr. apply default_nth. rewrite lin_in, lin_out. nia. }
  destruct b; cbn [bias_rows plus].
  - rewrite sumR_S_l. apply (f_equal2 Rplus).
    + pose proof (K 0%nat ltac:(cbn; lia)) as K0. cbn [mult plus] in K0. rewrite K0. cbn [ext_in nth mult plus]. ring.
    + apply sumR_ext. intros k Hk. pose proof (K (S k) ltac:(cbn; lia)) as K0. rewrite K0. cbn [ext_in nth]. ring.
  - rewrite Rplus_0_l. apply sumR_ext. intros k Hk. rewrite K by (cbn; lia). cbn [ext_in]. ring.
Qed.
Lemma ext_inner i b (x y : list R) : sumR (bias_rows b + i) (fun r => ext_in b x r * ext_in b y r) = (if b then 1 else 0) + sumR i (fun k => nth k x 0 * nth k y 0).
Proof. destruct b; cbn [bias_rows plus]; [rewrite sumR_S_l; cbn [ext_in nth]; ring|cbn [ext_in]; ring]. Qed.
Lemma cell o r j q l : (j < o)%nat -> (l < o)%nat -> (r * o + j = q * o + l)%nat -> r = q /\ j = l.
Proof. intros Hj Hl H. assert (r = q) by nia. subst. lia. Qed.

Theorem forward_moments E (c : Criterion R) i o b X m : standard_draws m E -> ((bias_rows b + i) * o <= m)%nat -> mwf X -> mcols X = i ->
  exists Y : (nat -> R) -> matrix R,
    (forall rng, net_predict (net_add rng (net_new c) (to_layer (KLinear i o b))) X = Ok (Y (rng 0%nat))) /\
    forall r j, (r < nrows X)%nat -> (j < o)%nat -> E (fun z => entry (Y z) r j) = 0 /\
      forall r' j', (r' < nrows X)%nat -> (j' < o)%nat -> E (fun z => entry (Y z) r j * entry (Y z) r' j') =
        if (j =? j')%nat then 2 / INR (bias_rows b + i + o) * ((if b then 1 else 0) + sumR i (fun k => entry X r k * entry X r' k)) else 0.
Proof.
  intros HE Hm W C. exists (fun z => Mat (map (net_row [KLinear i o b] (linear_default_params (lin_l i o b) z)) (mrows X)) o). split.
  - intros rng. rewrite (predict_rows _ [KLinear i o b] X o).
    + unfold net_add. cbn [nn_weights nn_layers net_new app length]. rewrite lin_of. reflexivity.
    + reflexivity.
    + unfold net_add. cbn [nn_weights nn_layers net_new app length]. rewrite lin_of. cbn [linear_layer nl_default_params]. fold (lin_l i o b). rewrite default_len, lin_in, lin_out.
      rewrite total_cons. cbn [kparams]. unfold total_params. cbn. lia.
    + exact W.
    + cbn [widths out_width]. now rewrite C, Nat.eqb_refl.
  - assert (EY : forall z r j, (r < nrows X)%nat -> (j < o)%nat -> entry (Mat (map (net_row [KLinear i o b] (linear_default_params (lin_l i o b) z)) (mrows X)) o) r j =
      sumR (bias_rows b + i) (fun k => (linear_default_sd (lin_l i o b) * ext_in b (nth r (mrows X) []) k) * z (k * o + j)%nat)).
    { intros z r j Hr Hj. unfold entry. cbn [mrows]. rewrite (nth_map _ (mrows X) r [] []) by exact Hr. apply row_form; auto. unfold mwf in W. rewrite Forall_forall, C in W. apply W, nth_In, Hr. }
    intros r j Hr Hj. split.
    + rewrite (E_ext m E HE _ _ (fun z => EY z r j Hr Hj)). apply (E_form m E HE). intros k Hk. nia.
    + intros r' j' Hr' Hj'. rewrite (E_ext m E HE _ (fun z => _ * _) (fun z => f_equal2 Rmult (EY z r j Hr Hj) (EY z r' j' Hr' Hj'))).
      destruct (Nat.eqb_spec j j') as [<-|Ne].
      * rewrite (E_forms_same m E HE) by (intros; nia).
        rewrite (sumR_ext _ _ (fun k => (linear_default_sd (lin_l i o b) * linear_default_sd (lin_l i o b)) * (ext_in b (nth r (mrows X) []) k * ext_in b (nth r' (mrows X) []) k))) by (intros; ring).
        rewrite sumR_scal, ext_inner, sd_sq by (rewrite lin_out; lia). unfold var_of. rewrite lin_in, lin_out. reflexivity.
      * apply (E_forms_apart m E HE); [intros; split; nia|]. intros k q Hk Hq K. apply Ne. now apply (cell o k j q j').
Qed.

(** ** Gradients going back *)
Theorem backward_moments E i o b (G X Y : matrix R) m : standard_draws m E -> ((bias_rows b + i) * o <= m)%nat -> (0 < o)%nat -> mwf G -> mcols G = o ->
  exists B : (nat -> R) -> matrix R,
    (forall z, nl_back_input (to_layer (KLinear i o b)) G X Y (Mat (chunk (bias_rows b + i) o (linear_default_params (lin_l i o b) z)) o) = Ok (B z)) /\
    forall r k, (r < nrows G)%nat -> (k < i)%nat -> E (fun z => entry (B z) r k) = 0 /\
      forall r' k', (r' < nrows G)%nat -> (k' < i)%nat -> E (fun z => entry (B z) r k * entry (B z) r' k') =
        if (k =? k')%nat then 2 / INR (bias_rows b + i + o) * sumR o (fun j => entry G r j * entry G r' j) else 0.
Proof.
  intros HE Hm Ho W C. set (P := fun z : nat -> R => Mat (chunk (bias_rows b + i) o (linear_default_params (lin_l i o b) z)) o).
  set (GI := fun z : nat -> R => mat_mul G (transpose (P z))).
  assert (NP : forall z, nrows (P z) = (bias_rows b + i)%nat) by (intros z; unfold P, nrows; cbn [mrows]; apply chunk_len).
  exists (fun z => if b then Mat (map (@tl R) (mrows (GI z))) (mcols (GI z) - 1) else GI z). split.
  - intros z. change (Mat (chunk _ _ _) o) with (P z). assert (EM : rmat_mul G (transpose (P z)) = Ok (GI z)).
    { unfold rmat_mul. rewrite transpose_nrows, C. unfold P at 1. cbn [mcols]. rewrite Nat.eqb_refl. reflexivity. }
    destruct b; cbn; unfold linear_back_input; cbn; rewrite EM; cbn [rbind]; [|reflexivity].
    apply remove_first_col_ok; [apply mat_mul_wf|]. change (mcols (GI z)) with (nrows (P z)). rewrite NP. cbn. lia.
  - assert (EB : forall z r k, (r < nrows G)%nat -> (k < i)%nat -> entry (if b then Mat (map (@tl R) (mrows (GI z))) (mcols (GI z) - 1) else GI z) r k =
      sumR o (fun j => (linear_default_sd (lin_l i o b) * entry G r j) * z ((bias_rows b + k) * o + j)%nat)).
    { intros z r k Hr Hk. transitivity (entry (GI z) r (bias_rows b + k)).
      - destruct b; [|reflexivity]. unfold entry. cbn [mrows bias_rows plus]. rewrite (nth_map (@tl R) (mrows (GI z)) r [] []) by (change (r < nrows (GI z))%nat; unfold GI; now rewrite mat_mul_nrows).
        destruct (nth r (mrows (GI z)) []); [destruct k; reflexivity|reflexivity].
      - unfold GI. rewrite mat_mul_entry; [|exact W|rewrite transpose_nrows; unfold P; cbn [mcols]; auto|exact Hr|change (bias_rows b + k < nrows (P z))%nat; rewrite NP; lia].
        rewrite C. apply sumR_ext. intros j Hj. rewrite transpose_entry; [|rewrite NP || idtac; unfold P; cbn [mcols]; lia|rewrite NP; lia].
        unfold P, entry at 2. cbn [mrows]. rewrite chunk_nth by lia. rewrite default_nth; [ring|]. rewrite lin_in, lin_out. nia. }
    intros r k Hr Hk. split.
    + rewrite (E_ext m E HE _ _ (fun z => EB z r k Hr Hk)). apply (E_form m E HE). intros j Hj. nia.
    + intros r' k' Hr' Hk'. rewrite (E_ext m E HE _ (fun z => _ * _) (fun z => f_equal2 Rmult (EB z r k Hr Hk) (EB z r' k' Hr' Hk'))).
      destruct (Nat.eqb_spec k k') as [<-|Ne].
      * rewrite (E_forms_same m E HE) by (intros; nia).
        rewrite (sumR_ext _ _ (fun j => (linear_default_sd (lin_l i o b) * linear_default_sd (lin_l i o b)) * (entry G r j * entry G r' j))) by (intros; ring).
        rewrite sumR_scal, sd_sq by (rewrite lin_out; lia). unfold var_of. rewrite lin_in, lin_out. reflexivity.
      * apply (E_forms_apart m E HE); [intros; split; nia|]. intros j q Hj Hq K. apply Ne. apply cell in K; auto. lia.
Qed.

(** ** Such draws exist: fair signs *)
Definition put (z : nat -> R) (k : nat) (x : R) : nat -> R := fun i => if (i =? k)%nat then x else z i.
Fixpoint signs (m : nat) (f : (nat -> R) -> R) : R :=
  match m with O => f (fun _ => 0) | S m' => (signs m' (fun z => f (put z m' 1)) + signs m' (fun z => f (put z m' (-1)))) / 2 end.
Lemma signs_ext m : forall f g, (forall z, f z = g z) -> signs m f = signs m g.
Proof. induction m as [|m IH]; intros f g H; cbn [signs]; [apply H|]. rewrite (IH (fun z => f (put z m 1)) (fun z => g (put z m 1))), (IH (fun z => f (put z m (-1))) (fun z => g (put z m (-1)))) by (intros; apply H). reflexivity. Qed.
Lemma signs_lin m : forall f g a b, signs m (fun z => a * f z + b * g z) = a * signs m f + b * signs m g.
Proof. induction m as [|m IH]; intros f g a b; cbn [signs]; [reflexivity|]. rewrite !(IH (fun z => f (put z m _)) (fun z => g (put z m _))). field. Qed.
Lemma signs_standard m : standard_draws m (signs m).
Proof.
  split; [apply signs_ext|]. split; [apply signs_lin|]. split; [|split].
  - induction m as [|m IH]; cbn [signs]; [reflexivity|]. rewrite IH. field.
  - induction m as [|m IH]; intros k Hk; [lia|]. cbn [signs]. destruct (Nat.eq_dec k m) as [->|Ne].
    + rewrite (signs_ext m _ (fun z => 1 * z m * 0 + 1 * 1)), (signs_ext m (fun z => put z m (-1) m) (fun z => -1 * (1 * z m * 0 + 1 * 1))) by (intros; unfold put; rewrite Nat.eqb_refl; ring).
      pose proof (signs_lin m (fun z => 1 * z m * 0 + 1 * 1) (fun _ => 0) (-1) 0) as K. rewrite (signs_ext m _ (fun z => -1 * (1 * z m * 0 + 1 * 1))) in K by (intros; ring). rewrite K. field.
    + rewrite !(signs_ext m (fun z => put z m _ k) (fun z => z k)) by (intros; unfold put; now rewrite (proj2 (Nat.eqb_neq k m) Ne)). rewrite IH by lia. field.
  - induction m as [|m IH]; intros k l Hk Hl; [lia|]. cbn [signs].
    assert (One : signs m (fun _ => 1) = 1) by (clear; induction m as [|m IH]; cbn [signs]; [reflexivity|]; rewrite IH; field).
    assert (Opp : forall f, signs m (fun z => - f z) = - signs m f).
    { intros f. rewrite (signs_ext m _ (fun z => -1 * f z + 0 * f z)) by (intros; ring). rewrite signs_lin. ring. }
    destruct (Nat.eq_dec k m) as [->|Nk], (Nat.eq_dec l m) as [->|Nl].
    + rewrite Nat.eqb_refl. rewrite (signs_ext m _ (fun z => 1)), (signs_ext m (fun z => put z m (-1) m * put z m (-1) m) (fun _ => 1)) by (intros; unfold put; rewrite Nat.eqb_refl; ring). rewrite One. field.
    + rewrite (proj2 (Nat.eqb_neq m l)) by auto. rewrite (signs_ext m _ (fun z => z l)), (signs_ext m (fun z => put z m (-1) m * put z m (-1) l) (fun z => - z l)) by (intros; unfold put; rewrite Nat.eqb_refl, (proj2 (Nat.eqb_neq l m) Nl); ring).
      rewrite Opp. field.
    + rewrite (proj2 (Nat.eqb_neq k m)) by auto. rewrite (signs_ext m _ (fun z => z k)), (signs_ext m (fun z => put z m (-1) k * put z m (-1) m) (fun z => - z k)) by (intros; unfold put; rewrite Nat.eqb_refl, (proj2 (Nat.eqb_neq k m) Nk); ring).
      rewrite Opp. field.
    + rewrite !(signs_ext m (fun z => put z m _ k * put z m _ l) (fun z => z k * z l)) by (intros; unfold put; now rewrite (proj2 (Nat.eqb_neq k m) Nk), (proj2 (Nat.eqb_neq l m) Nl)). rewrite IH by lia. field.
Qed.
Lemma sumR_const n c : sumR n (fun _ => c) = INR n * c.
Proof. induction n as [|n IH]; [cbn; ring|]. rewrite S_INR. cbn [sumR]. rewrite IH. ring. Qed.
Theorem signal_sizes E (c : Criterion R) i o b X G m : standard_draws m E -> ((bias_rows b + i) * o <= m)%nat -> (0 < o)%nat -> mwf X -> mcols X = i -> mwf G -> mcols G = o ->
  exists Y B : (nat -> R) -> matrix R,
    (forall rng, net_predict (net_add rng (net_new c) (to_layer (KLinear i o b))) X = Ok (Y (rng 0%nat))) /\
    (forall z, nl_back_input (to_layer (KLinear i o b)) G X (Y z) (Mat (chunk (bias_rows b + i) o (linear_default_params (lin_l i o b) z)) o) = Ok (B z)) /\
    (forall r, (r < nrows X)%nat -> E (fun z => sumR o (fun j => entry (Y z) r j ^ 2)) = 2 * INR o / INR (bias_rows b + i + o) * ((if b then 1 else 0) + sumR i (fun k => entry X r k ^ 2))) /\
    (forall r, (r < nrows G)%nat -> E (fun z => sumR i (fun k => entry (B z) r k ^ 2)) = 2 * INR i / INR (bias_rows b + i + o) * sumR o (fun j => entry G r j ^ 2)).
Proof.
  intros HE Hm Ho W C WG CG. destruct (forward_moments E c i o b X m HE Hm W C) as (Y & EY & MY).
  destruct (backward_moments E i o b G X X m HE Hm Ho WG CG) as (B & EB & MB). exists Y, B. split; [exact EY|]. split; [intros z; rewrite <- (EB z); destruct b; reflexivity|].
  assert (N0 : INR (bias_rows b + i + o) <> 0) by (apply not_0_INR; lia). split; intros r Hr.
  - rewrite (E_ext m E HE _ (fun z => sumR o (fun j => entry (Y z) r j * entry (Y z) r j))) by (intros; apply sumR_ext; intros; ring).
    rewrite (E_sum m E HE o (fun j z => entry (Y z) r j * entry (Y z) r j)).
    rewrite (sumR_ext o _ (fun _ => 2 / INR (bias_rows b + i + o) * ((if b then 1 else 0) + sumR i (fun k => entry X r k ^ 2)))); [rewrite sumR_const; field; exact N0|].
    intros j Hj. destruct (MY r j Hr Hj) as (_ & M). rewrite (M r j Hr Hj), Nat.eqb_refl. do 2 f_equal. apply sumR_ext. intros k Hk. ring.
  - rewrite (E_ext m E HE _ (fun z => sumR i (fun k => entry (B z) r k * entry (B z) r k))) by (intros; apply sumR_ext; intros; ring).
    rewrite (E_sum m E HE i (fun k z => entry (B z) r k * entry (B z) r k)).
    rewrite (sumR_ext i _ (fun _ => 2 / INR (bias_rows b + i + o) * sumR o (fun j => entry G r j ^ 2))); [rewrite sumR_const; field; exact N0|].
    intros k Hk. destruct (MB r k Hr Hk) as (_ & M). rewrite (M r k Hr Hk), Nat.eqb_refl. f_equal. apply sumR_ext. intros j Hj. ring.
Qed.
(** A layer with two inputs, a bias and one output: six draws are more than it needs. *)
Lemma glorot_ex : standard_draws 6 (signs 6) /\ mwf (Mat [[3; 4]] 2) /\ 2 / INR (bias_rows true + 2 + 1) * (1 + sumR 2 (fun k => entry (Mat [[3; 4]] 2) 0 k * entry (Mat [[3; 4]] 2) 0 k)) = 13.
Proof. split; [apply signs_standard|]. split; [repeat constructor|]. cbn. lra. Qed.
