(** Lemmas for [Props_NNetSym]: relabelling units. *)
From Coq Require Import List Arith Lia Bool Permutation Reals Lra.
From Verif Require Import Base BaseLemmas Num NumFn Linalg LinalgR Spec_Calc CalcR MatR Model_Toolkit Model_Optim Model_Cost Model_CG
  Model_Regression Model_NNet Spec_Cost Spec_NNet Spec_OptEq Spec_KerInv Spec_DBSCAN2 Proof_KMeans Proof_Toolkit Proof_Cost Proof_Equiv Proof_NNet Proof_NNet2 Proof_NNet3 Proof_NNet4 Proof_NNet5
  Proof_OptEq Proof_OptEq2 Spec_NNetSym.
Import ListNotations.

(** ** The order of the weights is an order *)
Lemma map_add_seq k a o : map (fun j => k + j) (seq a o) = seq (k + a) o.
Proof. revert a. induction o as [|o IH]; intros a; [reflexivity|]. cbn [seq map]. f_equal. rewrite IH. f_equal. lia. Qed.
Lemma map_add_seq' k a o : map (Nat.add k) (seq a o) = seq (k + a) o.
Proof. exact (map_add_seq k a o). Qed.
Lemma flat_blocks r o : flat_map (fun i => map (fun j => i * o + j) (seq 0 o)) (seq 0 r) = seq 0 (r * o).
Proof.
  induction r as [|r IH]; [reflexivity|]. rewrite seq_S, flat_map_app, IH. cbn [flat_map]. rewrite app_nil_r. replace (S r * o) with (r * o + o) by lia.
  rewrite seq_app. f_equal. cbn [plus]. rewrite map_add_seq. f_equal. lia.
Qed.
Lemma flat_map_perm {A B} (f g : A -> list B) l : (forall a, Permutation (f a) (g a)) -> Permutation (flat_map f l) (flat_map g l).
Proof. intros H. induction l as [|a l IH]; [constructor|]. cbn [flat_map]. now apply Permutation_app. Qed.
Lemma flat_map_perm_l {A B} (f : A -> list B) l l' : Permutation l l' -> Permutation (flat_map f l) (flat_map f l').
Proof.
  induction 1 as [|a l l' _ IH|a b l|l1 l2 l3 _ IH1 _ IH2]; [constructor| | |etransitivity; eauto]; cbn [flat_map]; [now apply Permutation_app_head|].
  rewrite !app_assoc. apply Permutation_app_tail, Permutation_app_comm.
Qed.
Definition row_order (b : bool) (p : list nat) : list nat := (if b then [0] else []) ++ map (Nat.add (bias_rows b)) p.
Lemma row_order_perm b p i : Permutation p (seq 0 i) -> Permutation (row_order b p) (seq 0 (bias_rows b + i)).
Proof.
  intros H. unfold row_order. rewrite (Permutation_map (Nat.add (bias_rows b)) H). rewrite (map_add_seq' (bias_rows b) 0 i), Nat.add_0_r. destruct b; reflexivity.
Qed.
Lemma layer_order_perm i o b p q : Permutation p (seq 0 i) -> Permutation q (seq 0 o) -> Permutation (layer_order o b p q) (seq 0 ((bias_rows b + i) * o)).
Proof.
  intros Hp Hq. unfold layer_order. change (_ ++ _) with (row_order b p). rewrite (flat_map_perm_l _ _ _ (row_order_perm b p i Hp)), <- flat_blocks.
  apply flat_map_perm. intros r. now apply Permutation_map.
Qed.
Lemma weight_order_perm {F} (ks : list (LayerKind F)) : forall p qs n c, Permutation p (seq 0 n) -> orders_fit ks qs -> widths ks n = Some c ->
  Permutation (weight_order ks p qs) (seq 0 (total_params ks)) /\ Permutation (output_order ks p qs) (seq 0 c).
Proof.
  induction ks as [|[i o b|a] ks IH]; intros p qs n c Hp Hf Hw; cbn [weight_order output_order orders_fit widths out_width] in *.
  - injection Hw as <-. split; [constructor|exact Hp].
  - destruct (n =? i)%nat eqn:E; [|discriminate]. apply Nat.eqb_eq in E. subst i. destruct Hf as (Hq & Hf). destruct (IH _ _ _ _ Hq Hf Hw) as (A & B). split; [|exact B].
    rewrite total_cons. cbn [kparams]. rewrite seq_app. apply Permutation_app; [now apply layer_order_perm|].
    rewrite (Permutation_map _ A). rewrite (map_add_seq' _ 0 _). rewrite Nat.add_0_r. reflexivity.
  - apply IH with n; auto.
Qed.

(** ** Rows *)
Lemma arr_nth {F} {N : Num F} pi (v : list F) k : k < length pi -> nth k (arrange pi v) nzero = nth (nth k pi 0) v nzero.
Proof. intros H. unfold arrange. now rewrite (nth_map (fun k => nth k v nzero) pi k nzero 0). Qed.
Lemma nth_blocks o q : forall rs r j, length q = o -> r < length rs -> j < o ->
  nth (r * o + j) (flat_map (fun r => map (fun j => r * o + j) q) rs) 0 = nth r rs 0 * o + nth j q 0.
Proof.
  induction rs as [|a rs IH]; intros r j L Hr Hj; [cbn in Hr; lia|]. cbn [flat_map]. destruct r as [|r].
  - rewrite app_nth1 by (rewrite map_length; lia). cbn [mult plus nth]. rewrite (nth_map (fun j => a * o + j) q j 0 0) by lia. reflexivity.
  - rewrite app_nth2 by (rewrite map_length; lia). rewrite map_length, L. replace (S r * o + j - o) with (r * o + j) by lia. cbn [nth]. apply IH; auto. cbn in Hr; lia.
Qed.
Lemma skipn_map_nth {F} {N : Num F} m (W : list nat) (w : list F) : map (fun k => nth k w nzero) (map (Nat.add m) W) = arrange W (skipn m w).
Proof. unfold arrange. rewrite map_map. apply map_ext. intros k. now rewrite skipn_nth. Qed.

Local Open Scope R_scope.
Lemma arr_nthR pi (v : list R) k : (k < length pi)%nat -> nth k (arrange pi v) 0 = nth (nth k pi 0%nat) v 0.
Proof. exact (arr_nth pi v k). Qed.
Lemma net_row_arrange ks : forall (w x : list R) p qs n c, Permutation p (seq 0 n) -> orders_fit ks qs -> widths ks n = Some c -> length x = n ->
  net_row ks (arrange (weight_order ks p qs) w) (arrange p x) = arrange (output_order ks p qs) (net_row ks w x).
Proof.
  induction ks as [|[i o b|a] ks IH]; intros w x p qs n c Hp Hf Hw Lx; cbn [weight_order output_order orders_fit widths out_width net_row] in *.
  - reflexivity.
  - destruct (n =? i)%nat eqn:E; [|discriminate]. apply Nat.eqb_eq in E. subst i. destruct Hf as (Hq & Hf). set (q := next_order o qs) in *.
    pose proof (Permutation_length Hq) as Lq. pose proof (Permutation_length Hp) as Lp. rewrite seq_length in Lq, Lp.
    pose proof (Permutation_length (layer_order_perm n o b p q Hp Hq)) as LL. rewrite seq_length in LL.
    set (m := ((bias_rows b + n) * o)%nat) in *.
    set (y := map _ (seq 0 o)). set (y0 := map _ (seq 0 o)) in |- *.
    assert (ES : skipn m (arrange (layer_order o b p q ++ map (Nat.add m) (weight_order ks q (tl qs))) w) = arrange (weight_order ks q (tl qs)) (skipn m w)).
    { unfold arrange at 1. rewrite map_app, skipn_app, map_length, LL, Nat.sub_diag. rewrite skipn_all2 by (rewrite map_length; lia). cbn [app skipn]. apply skipn_map_nth. }
    rewrite ES. assert (Ey : y = arrange q y0).
    { apply (nth_ext _ _ 0 0); [unfold y, arrange; now rewrite !map_length, seq_length|]. unfold y at 1. rewrite map_length, seq_length. intros j Hj. unfold y. rewrite nth_map_seq by auto.
      rewrite (arr_nthR q y0 j) by lia.
      assert (Hqj : (nth j q 0%nat < o)%nat) by (apply (arr_in o q Hq), nth_In; lia).
      unfold y0. rewrite nth_map_seq by auto.
      assert (EW : forall r, (r < bias_rows b + n)%nat -> nth (r * o + j) (arrange (layer_order o b p q ++ map (Nat.add m) (weight_order ks q (tl qs))) w) 0
          = nth (nth r (row_order b p) 0%nat * o + nth j q 0%nat) w 0).
      { intros r Hr. assert (r * o + j < m)%nat by (unfold m; nia).
        rewrite arr_nthR by (rewrite app_length; lia). rewrite app_nth1 by lia. unfold layer_order. change (_ ++ map (Nat.add (bias_rows b)) p) with (row_order b p).
        rewrite nth_blocks; auto. rewrite (Permutation_length (row_order_perm b p n Hp)), seq_length. exact Hr. }
      apply (f_equal2 Rplus).
      - destruct b; [|reflexivity]. specialize (EW 0%nat ltac:(cbn; lia)). cbn [mult plus row_order app nth] in EW. exact EW.
      - transitivity (sumR n (fun k => nth (nth k p 0%nat) x 0 * nth ((bias_rows b + nth k p 0%nat) * o + nth j q 0%nat) w 0)).
        + apply sumR_ext. intros k Hk. rewrite EW by lia. rewrite arr_nthR by lia. do 2 f_equal. f_equal. f_equal.
          unfold row_order. rewrite app_nth2 by (destruct b; cbn; lia). replace (bias_rows b + k - length (if b then [0%nat] else []))%nat with k by (destruct b; cbn; lia).
          rewrite (nth_map (Nat.add (bias_rows b)) p k 0%nat 0%nat) by lia. reflexivity.
        + exact (sumR_perm p n (fun k => nth k x 0 * nth ((bias_rows b + k) * o + nth j q 0%nat) w 0) Hp). }
    rewrite Ey. apply IH with o c; auto. unfold y0. now rewrite map_length, seq_length.
  - rewrite <- (arr_map n p Hp) by auto. apply IH with n c; auto. now rewrite map_length.
Qed.
