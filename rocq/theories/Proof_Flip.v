(** Lemmas for [Props_Flip]: changing the signs of units. *)
From Coq Require Import List Arith Lia Bool Reals Lra.
From Verif Require Import Base BaseLemmas Num NumFn Linalg LinalgR Spec_Calc CalcR MatR Model_Toolkit Model_Optim Model_Cost Model_CG
  Model_Regression Model_NNet Spec_Cost Spec_NNet Spec_OptEq Spec_KerInv Spec_DBSCAN2 Proof_KMeans Proof_Toolkit Proof_Cost Proof_Equiv Proof_NNet Proof_NNet2 Proof_NNet3 Proof_NNet4 Proof_NNet5
  Proof_OptEq Proof_OptEq2 Spec_NNetSym Proof_NNetSym Spec_Flip.
Import ListNotations.
Local Open Scope R_scope.

Definition sg (b : bool) : R := if b then -1 else 1.
Lemma sg_xorb a b : sg (xorb a b) = sg a * sg b.
Proof. destruct a, b; cbn; lra. Qed.
Lemma sg_sq b : sg b * sg b = 1.
Proof. destruct b; cbn; lra. Qed.
Lemma flip_sg b x : (if b : bool then - x else x) = sg b * x.
Proof. destruct b; cbn; lra. Qed.
Lemma flip_len bs v : length bs = length v -> length (flipped bs v) = length v.
Proof. intros L. unfold flipped. rewrite map2_length. lia. Qed.
Lemma flip_nth : forall bs v k, length bs = length v -> nth k (flipped bs v) 0 = sg (nth k bs false) * nth k v 0.
Proof.
  induction bs as [|b bs IH]; intros [|x v] k L; try discriminate; [destruct k; cbn; lra|]. unfold flipped in *. cbn [map2].
  destruct k as [|k]; cbn [nth]; [apply flip_sg|]. apply IH. cbn in L. lia.
Qed.
Lemma flip_ext bs v u : length bs = length v -> length u = length v -> (forall k, (k < length v)%nat -> nth k u 0 = sg (nth k bs false) * nth k v 0) -> flipped bs v = u.
Proof. intros L Lu H. apply (nth_ext _ _ 0 0); rewrite flip_len; auto. intros k Hk. now rewrite flip_nth, H. Qed.
Lemma flip_none bs v : length bs = length v -> ~ In true bs -> flipped bs v = v.
Proof.
  intros L H. apply flip_ext; auto. intros k Hk. assert (K : nth k bs false = false); [|rewrite K; cbn; lra].
  destruct (nth k bs false) eqn:E; auto. exfalso. apply H. rewrite <- E. apply nth_In. lia.
Qed.
Lemma flip_map f bs v : length bs = length v -> (forall x, f (- x) = - f x) -> map f (flipped bs v) = flipped bs (map f v).
Proof.
  intros L H. revert v L. induction bs as [|b bs IH]; intros [|x v] L; try discriminate; [reflexivity|]. unfold flipped in *. cbn [map2 map]. f_equal; [destruct b; auto|].
  apply IH. cbn in L. lia.
Qed.

(** ** Lengths *)
Lemma flat_signs_length (q : list bool) : forall rs : list bool, length (flat_map (fun r => map (xorb r) q) rs) = (length rs * length q)%nat.
Proof. induction rs as [|r rs IH]; [reflexivity|]. cbn [flat_map length]. rewrite app_length, map_length, IH. lia. Qed.
Lemma row_signs_length (b : bool) (p : list bool) : length ((if b then [false] else []) ++ p) = (bias_rows b + length p)%nat.
Proof. destruct b; reflexivity. Qed.
Lemma layer_signs_length b p q : length (layer_signs b p q) = ((bias_rows b + length p) * length q)%nat.
Proof. unfold layer_signs. now rewrite flat_signs_length, row_signs_length. Qed.
Lemma signs_length ks : forall p ss n c, length p = n -> signs_fit ks p ss -> widths ks n = Some c ->
  length (weight_signs ks p ss) = total_params ks /\ length (output_signs ks p ss) = c.
Proof.
  induction ks as [|[i o b|a] ks IH]; intros p ss n c Hp Hf Hw; cbn [weight_signs output_signs signs_fit widths out_width] in *.
  - injection Hw as <-. auto.
  - destruct (n =? i)%nat eqn:E; [|discriminate]. apply Nat.eqb_eq in E. subst i. destruct Hf as (Hq & Hf). destruct (IH _ _ _ _ Hq Hf Hw) as (A & B). split; [|exact B].
    rewrite total_cons. cbn [kparams]. rewrite app_length, layer_signs_length, A, Hq, Hp. lia.
  - destruct Hf as (_ & Hf). destruct (IH _ _ _ _ Hp Hf Hw) as (A & B). split; [|exact B]. rewrite total_cons, A. reflexivity.
Qed.
Lemma nth_signs (q : list bool) : forall (rs : list bool) r j, (r < length rs)%nat -> (j < length q)%nat ->
  nth (r * length q + j) (flat_map (fun r => map (xorb r) q) rs) false = xorb (nth r rs false) (nth j q false).
Proof.
  induction rs as [|a rs IH]; intros r j Hr Hj; [cbn in Hr; lia|]. cbn [flat_map]. destruct r as [|r].
  - rewrite app_nth1 by (rewrite map_length; lia). cbn [mult plus nth]. now rewrite (nth_map (xorb a) q j false false) by lia.
  - rewrite app_nth2 by (rewrite map_length; lia). rewrite map_length. replace (S r * length q + j - length q)%nat with (r * length q + j)%nat by lia. cbn [nth]. apply IH; auto. cbn in Hr; lia.
Qed.
Lemma flip_skipn m bs v : flipped (skipn m bs) (skipn m v) = skipn m (flipped bs v).
Proof.
  revert bs v. induction m as [|m IH]; intros bs v; [reflexivity|]. destruct bs as [|b bs], v as [|x v]; cbn [skipn]; try reflexivity; [|exact (IH bs v)].
  unfold flipped at 1. destruct (skipn m bs); reflexivity.
Qed.

(** ** Rows *)
Lemma net_row_flip ks : forall (w x : list R) p ss n c, length p = n -> signs_fit ks p ss -> widths ks n = Some c -> length x = n -> length w = total_params ks ->
  net_row ks (flipped (weight_signs ks p ss) w) (flipped p x) = flipped (output_signs ks p ss) (net_row ks w x).
Proof.
  induction ks as [|[i o b|a] ks IH]; intros w x p ss n c Hp Hf Hw Lx Lw; cbn [weight_signs output_signs signs_fit widths out_width net_row] in *.
  - reflexivity.
  - destruct (n =? i)%nat eqn:E; [|discriminate]. apply Nat.eqb_eq in E. subst i. destruct Hf as (Hq & Hf). set (q := next_signs o ss) in *.
    destruct (signs_length ks q (tl ss) o c Hq Hf Hw) as (LW & _). rewrite total_cons in Lw. cbn [kparams] in Lw.
    pose proof (layer_signs_length b p q) as LL. rewrite Hp, Hq in LL. set (m := ((bias_rows b + n) * o)%nat) in *.
    set (ws := layer_signs b p q ++ weight_signs ks q (tl ss)). assert (Lws : length ws = length w) by (unfold ws; rewrite app_length; lia).
    set (y := map _ (seq 0 o)). set (y0 := map _ (seq 0 o)) in |- *.
    assert (ES : skipn m (flipped ws w) = flipped (weight_signs ks q (tl ss)) (skipn m w)).
    { rewrite <- flip_skipn. f_equal. unfold ws. rewrite skipn_app, LL, Nat.sub_diag, skipn_all2 by lia. reflexivity. }
    rewrite ES. assert (Ey : y = flipped q y0).
    { symmetry. apply flip_ext; [unfold y0; now rewrite map_length, seq_length|unfold y, y0; now rewrite !map_length|]. unfold y0 at 1. rewrite map_length, seq_length. intros j Hj.
      unfold y, y0. rewrite !nth_map_seq by auto.
      assert (EW : forall r, (r < bias_rows b + n)%nat -> nth (r * o + j) (flipped ws w) 0
          = sg (nth r ((if b then [false] else []) ++ p) false) * sg (nth j q false) * nth (r * o + j) w 0).
      { intros r Hr. assert (r * o + j < m)%nat by (unfold m; nia). rewrite flip_nth by auto. f_equal. unfold ws. rewrite app_nth1 by lia. rewrite <- sg_xorb. f_equal.
        unfold layer_signs. rewrite <- Hq. apply nth_signs; [rewrite row_signs_length; lia|lia]. }
      rewrite Rmult_plus_distr_l. apply (f_equal2 Rplus).
      - destruct b; [|lra]. specialize (EW 0%nat ltac:(cbn; lia)). cbn [mult plus app nth] in EW. rewrite EW. cbn [sg]. ring.
      - rewrite <- sumR_scal. apply sumR_ext. intros k Hk. rewrite EW by lia. rewrite flip_nth by lia.
        replace (nth (bias_rows b + k) ((if b then [false] else []) ++ p) false) with (nth k p false) by (destruct b; reflexivity).
        pose proof (sg_sq (nth k p false)) as S. transitivity (sg (nth k p false) * sg (nth k p false) * (sg (nth j q false) * (nth k x 0 * nth ((bias_rows b + k) * o + j) w 0))); [ring|]. rewrite S. ring. }
    rewrite Ey. apply IH with o c; auto; [unfold y0; now rewrite map_length, seq_length|]. rewrite skipn_length. lia.
  - destruct Hf as (Ho & Hf). rewrite total_cons in Lw. cbn [kparams plus] in Lw.
    assert (Em : map (af a) (flipped p x) = flipped p (map (af a) x)).
    { destruct Ho as [Ho|Ho]; [apply flip_map; auto; lia|]. rewrite !flip_none; auto; rewrite ?map_length; lia. }
    rewrite Em. apply IH with n c; auto. now rewrite map_length.
Qed.
