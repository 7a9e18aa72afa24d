(** Logistic regression on overlapping data: the best fit exists, is unique, and training approaches it. *)
From Coq Require Import List Arith Lia Bool Reals Lra.
From Verif Require Import Base BaseLemmas Num NumFn Linalg LinalgR Euclid Spec_Calc CalcR MatR Proof_KMeans Model_Cost Proof_Cost Model_Toolkit Proof_Toolkit Model_Optim Spec_Optim Proof_Optim Proof_Optim2
  Model_Regression Spec_Regression Proof_Regression Proof_Regression2 Proof_GLM2 Proof_Converge Proof_Converge2 Spec_GDRate Proof_GDRate Spec_Succeeds
  Spec_Separable Proof_Separable Proof_Farkas Proof_Minimiser Spec_Overlap.
Import ListNotations.
Local Open Scope R_scope.

Lemma sigmoid_opp (z : R) : sigmoid (- z) = 1 - sigmoid z.
Proof. rewrite !sigmoid_R, Ropp_involutive, exp_Ropp. pose proof (exp_pos z). field. split; lra. Qed.
Lemma Rabs_le_inv a b : Rabs a <= b -> - b <= a <= b.
Proof. intros H. pose proof (Rle_abs a). pose proof (Rle_abs (- a)) as K. rewrite Rabs_Ropp in K. lra. Qed.
Definition bend (K : R) : R := sigmoid K * (1 - sigmoid K).
Lemma bend_pos K : 0 < bend K.
Proof. unfold bend. pose proof (sigmoid_range K). nra. Qed.
Lemma bend_min K c : Rabs c <= K -> bend K <= sigmoid c * (1 - sigmoid c).
Proof.
  intros H. apply Rabs_le_inv in H. unfold bend. pose proof (sigmoid_lip c K ltac:(lra)) as H1. pose proof (sigmoid_lip (- K) c ltac:(lra)) as H2.
  rewrite sigmoid_opp in H2. assert (0 <= (sigmoid K - sigmoid c) * (sigmoid K + sigmoid c - 1)) by (apply Rmult_le_pos; lra). nra.
Qed.
Lemma sigmoid_slope K a b : a <= b -> Rabs a <= K -> Rabs b <= K -> bend K * (b - a) <= sigmoid b - sigmoid a.
Proof.
  intros [H| ->] Ha Hb; [|lra]. apply Rabs_le_inv in Ha, Hb.
  destruct (MVT_cor2 sigmoid (fun z => sigmoid z * (1 - sigmoid z)) a b H) as (c & E & Hc); [intros; apply sigmoid_deriv|].
  rewrite E. apply Rmult_le_compat_r; [lra|]. apply bend_min. apply Rabs_le. lra.
Qed.
Lemma sp_strong K z w : Rabs z <= K -> Rabs w <= K -> sp z + sigmoid z * (w - z) + bend K / 2 * (w - z) ^ 2 <= sp w.
Proof.
  intros Hz Hw. set (k := bend K).
  assert (Q : forall a b, a < b -> exists c, (sp b - k / 2 * (b * b)) - (sp a - k / 2 * (a * a)) = (sigmoid c - k * c) * (b - a) /\ a < c < b).
  { intros a b H. destruct (MVT_cor2 (fun x => sp x - k / 2 * (x * x)) (fun x => sigmoid x - k * x) a b H) as (c & E & Hc); [|eauto].
    intros c _. replace (sigmoid c - k * c) with (sigmoid c - k / 2 * (1 * c + c * 1)) by field.
    apply (derivable_pt_lim_minus sp (fun x => k / 2 * (x * x))); [apply sp_deriv|].
    apply (derivable_pt_lim_scal (fun x => x * x)). apply (derivable_pt_lim_mult id id); apply derivable_pt_lim_id. }
  pose proof (Rabs_le_inv _ _ Hz) as Hz'. pose proof (Rabs_le_inv _ _ Hw) as Hw'.
  destruct (Rtotal_order z w) as [H|[->|H]].
  - destruct (Q z w H) as (c & E & Hc). assert (S := sigmoid_slope K z c ltac:(lra) Hz ltac:(apply Rabs_le; lra)). fold k in S.
    assert (0 <= (sigmoid c - sigmoid z - k * (c - z)) * (w - z)) by (apply Rmult_le_pos; lra). nra.
  - lra.
  - destruct (Q w z H) as (c & E & Hc). assert (S := sigmoid_slope K c z ltac:(lra) ltac:(apply Rabs_le; lra) Hz). fold k in S.
    assert (0 <= (sigmoid z - sigmoid c - k * (z - c)) * (z - w)) by (apply Rmult_le_pos; lra). nra.
Qed.

Section Data.
  Variables (X : matrix R) (y : list R).
  Hypothesis W : mwf X.
  Hypothesis Hn : (0 < nrows X)%nat.
  Hypothesis Ly : length y = nrows X.
  Hypothesis Hy : labels y.
  Notation n := (nrows X).
  Notation d := (S (mcols X)).
  Notation row i := (nth i (mrows X) []).

  Definition lcomb (u : nat -> R) (s : R) (v : nat -> R) : nat -> R := fun k => u k + s * v k.
  Definition A (i : nat) (v : nat -> R) : R := v 0%nat + sumR (mcols X) (fun k => v (S k) * nth k (row i) 0).
  Definition sg (i : nat) : R := 2 * nth i y 0 - 1.
  Lemma row_len i : (i < n)%nat -> length (row i) = mcols X.
  Proof. intros Hi. apply (proj1 (Forall_forall _ _) W). now apply nth_In. Qed.
  Lemma A_lin i : lin lcomb (A i).
  Proof.
    intros u s v. unfold A, lcomb.
    rewrite (sumR_ext (mcols X) (fun k => (u (S k) + s * v (S k)) * nth k (row i) 0) (fun k => u (S k) * nth k (row i) 0 + s * (v (S k) * nth k (row i) 0))) by (intros; ring).
    rewrite sumR_plus, sumR_scal. ring.
  Qed.
  Lemma A_affine i p : (i < n)%nat -> affine p (row i) = A i (fun k => nth k p 0).
  Proof. intros Hi. unfold affine, A. now rewrite row_len. Qed.
  Definition listed (v : nat -> R) : list R := map v (seq 0 d).
  Lemma listed_len v : length (listed v) = d.
  Proof. unfold listed. now rewrite map_length, seq_length. Qed.
  Lemma listed_nth v k : (k < d)%nat -> nth k (listed v) 0 = v k.
  Proof. intros Hk. unfold listed. rewrite (nth_map v _ _ _ 0%nat) by (rewrite seq_length; exact Hk). now rewrite seq_nth. Qed.
  Lemma A_listed i v : (i < n)%nat -> affine (listed v) (row i) = A i v.
  Proof.
    intros Hi. rewrite A_affine by exact Hi. unfold A. rewrite listed_nth by lia. f_equal. apply sumR_ext. intros k Hk. now rewrite listed_nth by lia.
  Qed.
  Lemma sg_cases i : (i < n)%nat -> (nth i y 0 = 1 /\ sg i = 1) \/ (nth i y 0 = 0 /\ sg i = -1).
  Proof. intros Hi. unfold sg. destruct (Hy i) as [E|E]; [lia|right|left]; rewrite E; split; auto; lra. Qed.

  (** The rows, signed by their targets, are balanced. *)
  Lemma balanced : overlap X y -> exists l, (forall i, (i < n)%nat -> 1 <= l i) /\ forall v, sumR n (fun i => l i * (sg i * A i v)) = 0.
  Proof.
    intros O. apply (stiemke lcomb n (fun i v => sg i * A i v)).
    - intros i Hi u s v. rewrite A_lin. ring.
    - intros v Hv i Hi. rewrite <- A_listed by exact Hi. rewrite (O (listed v)); [ring|apply listed_len| |exact Hi].
      intros j Hj. rewrite A_listed by exact Hj. specialize (Hv j Hj). cbv beta in Hv. destruct (sg_cases j Hj) as [(E & S)|(E & S)]; rewrite S in Hv; rewrite E; lra.
  Qed.

  Definition margin (p : list R) (i : nat) : R := sg i * affine p (row i).
  Lemma loss_margin p i : (i < n)%nat -> row_loss (nth i y 0) (affine p (row i)) = sp (- margin p i).
  Proof.
    intros Hi. unfold margin, sp. destruct (sg_cases i Hi) as [(E & S)|(E & S)]; rewrite E, S.
    - rewrite row_loss_1. do 3 f_equal. ring.
    - rewrite row_loss_0. do 3 f_equal. ring.
  Qed.
  Lemma loss_sum p : log_loss X y p = sumR n (fun i => sp (- margin p i)) / INR n.
  Proof. rewrite log_loss_rows. f_equal. apply sumR_ext. intros i Hi. now apply loss_margin. Qed.
  Lemma sp_pos z : 0 < sp z. Proof. apply ln_1p_pos. Qed.
  Lemma sp_above z : z < sp z.
  Proof. unfold sp. rewrite <- (ln_exp z) at 1. apply ln_increasing; [apply exp_pos|]. lra. Qed.
  Lemma n_pos : 0 < INR n. Proof. apply lt_0_INR. exact Hn. Qed.
  Lemma loss_pos p : 0 <= log_loss X y p.
  Proof.
    rewrite loss_sum. apply Rmult_le_pos; [|left; apply Rinv_0_lt_compat, n_pos]. apply sumR_ge0. intros. left. apply sp_pos.
  Qed.
  Lemma margin_low p i c : log_loss X y p <= c -> (i < n)%nat -> - (INR n * c) <= margin p i.
  Proof.
    intros H Hi. rewrite loss_sum in H. pose proof n_pos as P.
    assert (K : sumR n (fun i => sp (- margin p i)) <= INR n * c).
    { apply Rmult_le_reg_r with (/ INR n); [now apply Rinv_0_lt_compat|]. replace (INR n * c * / INR n) with c by (field; lra). exact H. }
    pose proof (sumR_term_le n (fun i => sp (- margin p i)) ltac:(intros; left; apply sp_pos) i Hi) as T. cbv beta in T.
    pose proof (sp_above (- margin p i)). lra.
  Qed.

  Section Overlap.
    Variable l : nat -> R.
    Hypothesis l1 : forall i, (i < n)%nat -> 1 <= l i.
    Hypothesis l0 : forall v, sumR n (fun i => l i * (sg i * A i v)) = 0.

    Lemma margins_sum p : sumR n (fun i => l i * margin p i) = 0.
    Proof. rewrite <- (l0 (fun k => nth k p 0)). apply sumR_ext. intros i Hi. unfold margin. now rewrite A_affine. Qed.
    Lemma l_sum_pos : 0 <= sumR n l.
    Proof. apply sumR_ge0. intros i Hi. specialize (l1 i Hi). lra. Qed.
    Lemma margin_high p i B : 0 <= B -> (forall j, (j < n)%nat -> - B <= margin p j) -> (i < n)%nat -> margin p i <= B * sumR n l.
    Proof.
      intros B0 H Hi.
      assert (K : l i * (margin p i + B) <= sumR n (fun j => l j * (margin p j + B))).
      { apply (sumR_term_le n (fun j => l j * (margin p j + B))); [|exact Hi]. intros j Hj. specialize (H j Hj). specialize (l1 j Hj). apply Rmult_le_pos; lra. }
      rewrite (sumR_ext n _ (fun j => l j * margin p j + B * l j)) in K by (intros; ring). rewrite sumR_plus, sumR_scal, margins_sum in K.
      pose proof (l1 i Hi). specialize (H i Hi). nra.
    Qed.
    Lemma affine_bound c p i : log_loss X y p <= c -> (i < n)%nat -> Rabs (affine p (row i)) <= INR n * c * (1 + sumR n l).
    Proof.
      intros H Hi. pose proof (loss_pos p) as P. pose proof n_pos. pose proof l_sum_pos.
      assert (B0 : 0 <= INR n * c) by (apply Rmult_le_pos; lra).
      pose proof (margin_low p i c H Hi) as K1. pose proof (margin_high p i (INR n * c) B0 (fun j Hj => margin_low p j c H Hj) Hi) as K2.
      assert (K3 : 0 <= INR n * c * sumR n l) by (apply Rmult_le_pos; auto).
      unfold margin in K1, K2. destruct (sg_cases i Hi) as [(_ & S)|(_ & S)]; rewrite S in K1, K2; apply Rabs_le; lra.
    Qed.
    (** Some row is on the wrong side, so the loss is bounded below. *)
    Lemma wrong_side p : exists i, (i < n)%nat /\ margin p i <= 0.
    Proof.
      apply Classical_Prop.NNPP. intros N. assert (P : forall i, (i < n)%nat -> 0 < margin p i).
      { intros i Hi. apply Rnot_le_lt. intros K. apply N. eauto. }
      pose proof (margins_sum p) as Z. pose proof (sumR_term_le n (fun i => l i * margin p i)) as T. cbv beta in T.
      specialize (T ltac:(intros i Hi; specialize (P i Hi); specialize (l1 i Hi); nra) 0%nat Hn). specialize (P 0%nat Hn). pose proof (l1 0%nat Hn). nra.
    Qed.
    Lemma loss_low p : 1 / 2 <= INR n * log_loss X y p.
    Proof.
      destruct (wrong_side p) as (i & Hi & M). rewrite loss_sum. pose proof n_pos as P.
      replace (INR n * (sumR n (fun i => sp (- margin p i)) / INR n)) with (sumR n (fun i => sp (- margin p i))) by (field; lra).
      pose proof (sumR_term_le n (fun i => sp (- margin p i)) ltac:(intros; left; apply sp_pos) i Hi) as T. cbv beta in T.
      assert (K : ln 2 <= sp (- margin p i)). { unfold sp. apply ln_le; [lra|]. pose proof (exp_le 0 (- margin p i) ltac:(lra)). rewrite exp_0 in H. lra. }
      pose proof ln_lt_2. lra.
    Qed.
  End Overlap.

  Notation Z := (with_ones X).
  Lemma Z_nth p i : length p = d -> (i < n)%nat -> nth i (mat_vec Z p) 0 = affine p (row i).
  Proof. intros Lp Hi. rewrite mat_vec_ones by auto. now rewrite (nth_map (affine p) _ _ _ []) by exact Hi. Qed.
  Lemma row_size : forall x, In x (mrows X) -> 1 + sqnorm x <= 1 + sumR n (fun i => sqnorm (row i)).
  Proof.
    intros x Hx. apply (In_nth _ _ []) in Hx. destruct Hx as (i & Hi & <-).
    pose proof (sumR_term_le n (fun i => sqnorm (row i))) as T. cbv beta in T. specialize (T ltac:(intros; rewrite sqnorm_dot; apply dot_ge0) i Hi). lra.
  Qed.

  Theorem fit_exists start : overlap X y -> spans X -> length start = d ->
    exists z k, length z = d /\ 0 < k /\ (forall q, length q = d -> log_loss X y z <= log_loss X y q) /\
      (forall p, length p = d -> log_loss X y p <= log_loss X y start -> k * dist2 p z <= log_loss X y p - log_loss X y z).
  Proof.
    intros O Sp Ls. destruct (balanced O) as (l & l1 & l0).
    destruct (coercive lcomb n d (fun i v => A i v) (fun k v => v k)) as (C & C0 & HC).
    { intros; apply A_lin. }
    { intros k Hk u s v. reflexivity. }
    { intros v Hv k Hk. rewrite <- (listed_nth v k Hk). rewrite (Sp (listed v)); [|apply listed_len|].
      - apply nth_repeat.
      - intros r Hr. apply (In_nth _ _ []) in Hr. destruct Hr as (i & Hi & <-). rewrite A_listed by exact Hi. now apply Hv. }
    set (K := INR n * log_loss X y start * (1 + sumR n l)). set (kap := bend K). pose proof (bend_pos K) as kap0. fold kap in kap0. pose proof n_pos as N0.
    set (mu := kap / (INR n * C)). assert (M0 : 0 < mu) by (unfold mu; apply Rdiv_lt_0_compat; [auto|apply Rmult_lt_0_compat; auto]).
    set (L := 1 + sumR n (fun i => sqnorm (row i))).
    assert (L0 : 0 <= L). { unfold L. assert (0 <= sumR n (fun i => sqnorm (row i))); [|lra]. apply sumR_ge0. intros. rewrite sqnorm_dot. apply dot_ge0. }
    assert (Wz : mwf Z) by (apply with_ones_wf; exact W). assert (Nz : nrows Z = n) by apply with_ones_nrows.
    assert (EL : forall p, length p = d -> log_loss X y p = lg_cost Z y p) by (intros; now apply log_loss_cost).
    destruct (minimiser d (lg_cost Z y) (lg_grad Z y) (L / 4) mu start) as (z & Lz & Bz & Kz).
    - refine (lg_smooth Z y L Wz _ _ _); [lia|lia|]. rewrite Nz. exact (rows_bound X L W row_size).
    - refine (lg_convex Z y Wz _ _); lia.
    - intros x Lx. rewrite <- EL by exact Lx. apply loss_pos.
    - lra.
    - exact M0.
    - exact Ls.
    - intros p q (Lp & Sp') (Lq & Sq). rewrite <- !EL in Sp', Sq by auto.
      assert (LG : length (lg_grad Z y p) = d). { unfold lg_grad. rewrite map_length, mat_vec_length', transpose_nrows. reflexivity. }
      rewrite <- (dot_diff d _ p q LG Lp Lq). rewrite lg_grad_dot by (auto; try lia; rewrite vsub_len'; cbn; lia). unfold lg_cost. rewrite Nz.
      assert (Kd : mu / 2 * dist2 q p <= kap / 2 * sumR n (fun i => nth i (mat_vec Z (vsub q p)) 0 ^ 2) / INR n).
      { specialize (HC (fun k => nth k (vsub q p) 0)). cbv beta in HC.
        assert (E1 : sumR d (fun k => nth k (vsub q p) 0 ^ 2) = dist2 q p).
        { unfold dist2. rewrite Lq. apply sumR_ext. intros k Hk. unfold vsub. rewrite (map2_nth nsub _ _ k 0 0 0) by lia. reflexivity. }
        assert (E2 : sumR n (fun i => A i (fun k => nth k (vsub q p) 0) ^ 2) = sumR n (fun i => nth i (mat_vec Z (vsub q p)) 0 ^ 2)).
        { apply sumR_ext. intros i Hi. rewrite Z_nth by (auto; rewrite vsub_len'; lia). now rewrite A_affine by exact Hi. }
        rewrite E1, E2 in HC. unfold mu. set (D := dist2 q p) in *. set (Q := sumR n _) in *.
        apply Rmult_le_reg_l with (INR n * C); [now apply Rmult_lt_0_compat|].
        replace (INR n * C * (kap / (INR n * C) / 2 * D)) with (kap / 2 * D) by (field; lra).
        replace (INR n * C * (kap / 2 * Q / INR n)) with (kap / 2 * (C * Q)) by (field; lra).
        apply Rmult_le_compat_l; lra. }
      apply Rle_trans with (sumR n (fun i => sp (nth i (mat_vec Z p) 0) - nth i y 0 * nth i (mat_vec Z p) 0) / INR n +
        sumR n (fun i => (sigmoid (nth i (mat_vec Z p) 0) - nth i y 0) * nth i (mat_vec Z (vsub q p)) 0) / INR n +
        kap / 2 * sumR n (fun i => nth i (mat_vec Z (vsub q p)) 0 ^ 2) / INR n); [lra|].
      rewrite <- sumR_scal. rewrite <- !Rdiv_plus_distr, <- !sumR_plus. apply div_le; [exact N0|]. apply sumR_le. intros i Hi.
      rewrite (mat_vec_diff Z p q i) by (first [exact Lp|exact Lq|lia]).
      assert (Zp : Rabs (nth i (mat_vec Z p) 0) <= K) by (rewrite Z_nth by auto; now apply (affine_bound l l1 l0)).
      assert (Zq : Rabs (nth i (mat_vec Z q) 0) <= K) by (rewrite Z_nth by auto; now apply (affine_bound l l1 l0)).
      rewrite (mat_vec_diff Z p q i) in Zq by (first [exact Lp|exact Lq|lia]).
      pose proof (sp_strong K _ _ Zp Zq) as T. fold kap in T.
      set (a := nth i (mat_vec Z p) 0) in *. set (b := nth i (mat_vec Z (vsub q p)) 0) in *. replace (a + b - a) with b in T by ring. lra.
    - exists z, (mu / 4). split; [exact Lz|]. split; [lra|]. split.
      + intros q Lq. rewrite !EL by auto. now apply Bz.
      + intros p Lp Sp'. rewrite !EL in * by auto. now apply Kz.
  Qed.

  (** Without overlap the loss can always be lowered. *)
  Theorem fit_overlap p : best_fit X y p -> overlap X y.
  Proof.
    intros (Lp & B) v Lv Hv i Hi. apply Classical_Prop.NNPP. intros Nz.
    set (q := map2 Rplus p v). assert (Lq : length q = d) by (unfold q; rewrite map2_length; lia).
    assert (E : forall j, (j < n)%nat -> affine q (row j) = affine p (row j) + affine v (row j)).
    { intros j Hj. rewrite !A_affine by exact Hj. unfold A.
      assert (Eq : forall k, (k < d)%nat -> nth k q 0 = nth k p 0 + nth k v 0). { intros k Hk. unfold q. rewrite (map2_nth Rplus _ _ k 0 0 0) by lia. reflexivity. }
      rewrite Eq by lia. rewrite (sumR_ext (mcols X) (fun k => nth (S k) q 0 * nth k (row j) 0) (fun k => nth (S k) p 0 * nth k (row j) 0 + nth (S k) v 0 * nth k (row j) 0)).
      - rewrite sumR_plus. ring.
      - intros k Hk. rewrite Eq by lia. ring. }
    assert (Mv : forall j, (j < n)%nat -> margin q j = margin p j + margin v j) by (intros j Hj; unfold margin; rewrite E by exact Hj; ring).
    assert (M0 : forall j, (j < n)%nat -> 0 <= margin v j).
    { intros j Hj. unfold margin. specialize (Hv j Hj). destruct (sg_cases j Hj) as [(Ey & S)|(Ey & S)]; rewrite S; [pose proof (proj1 Hv Ey)|pose proof (proj2 Hv Ey)]; lra. }
    assert (Mi : 0 < margin v i).
    { specialize (M0 i Hi). destruct M0 as [M0|M0]; [exact M0|]. exfalso. apply Nz. unfold margin in M0. destruct (sg_cases i Hi) as [(_ & S)|(_ & S)]; rewrite S in M0; lra. }
    assert (mono : forall a b, a <= b -> sp a <= sp b). { intros a b H. unfold sp. apply ln_le; [pose proof (exp_pos a); lra|]. pose proof (exp_le a b H). lra. }
    assert (smono : forall a b, a < b -> sp a < sp b). { intros a b H. unfold sp. apply ln_increasing; [pose proof (exp_pos a); lra|]. pose proof (exp_increasing a b H). lra. }
    specialize (B q Lq). rewrite !loss_sum in B.
    assert (K : sumR n (fun j => sp (- margin p j)) <= sumR n (fun j => sp (- margin q j))).
    { pose proof n_pos as P. apply Rmult_le_reg_r with (/ INR n); [now apply Rinv_0_lt_compat|exact B]. }
    pose proof (sumR_term_le n (fun j => sp (- margin p j) - sp (- margin q j))) as T. cbv beta in T.
    specialize (T ltac:(intros j Hj; pose proof (mono (- margin q j) (- margin p j) ltac:(rewrite Mv by exact Hj; specialize (M0 j Hj); lra)); lra) i Hi).
    rewrite sumR_minus in T. pose proof (smono (- margin q i) (- margin p i) ltac:(rewrite Mv by exact Hi; lra)). lra.
  Qed.
End Data.

Theorem best_exists X y : mwf X -> (0 < nrows X)%nat -> length y = nrows X -> labels y -> spans X ->
  ((exists p, best_fit X y p) <-> overlap X y) /\ (forall p q, best_fit X y p -> best_fit X y q -> p = q).
Proof.
  intros W Hn Ly Hy Sp. split; [split|].
  - intros (p & B). now apply (fit_overlap X y W Hn Ly Hy p).
  - intros O. destruct (fit_exists X y W Hn Ly Hy (repeat 0 (S (mcols X))) O Sp (repeat_length _ _)) as (z & k & Lz & _ & Bz & _). exists z. split; auto.
  - assert (U : forall z p, best_fit X y z -> best_fit X y p -> log_loss X y p = log_loss X y z).
    { intros z p (Lz & Bz) (Lp & Bp). apply Rle_antisym; auto. }
    assert (V : forall start p, best_fit X y start -> best_fit X y p -> forall z k, length z = S (mcols X) -> 0 < k ->
      (forall q, length q = S (mcols X) -> log_loss X y z <= log_loss X y q) ->
      (forall p, length p = S (mcols X) -> log_loss X y p <= log_loss X y start -> k * dist2 p z <= log_loss X y p - log_loss X y z) -> p = z).
    { intros start p (Ls & Bs) (Lp & Bp) z k Lz k0 Bz Kz. specialize (Kz p Lp (Bp start Ls)). specialize (Bp z Lz).
      rewrite (dist2_d2 p z) in Kz by lia. apply d2_zero; [lia|]. pose proof (d2_nonneg p z). nra. }
    intros p q Bp Bq. pose proof (fit_overlap X y W Hn Ly Hy p Bp) as O.
    destruct (fit_exists X y W Hn Ly Hy p O Sp (proj1 Bp)) as (z & k & Lz & k0 & Bz & Kz).
    rewrite (V p p Bp Bp z k Lz k0 Bz Kz), (V p q Bp Bq z k Lz k0 Bz Kz). reflexivity.
Qed.

(** Training comes near the best fit. *)
Theorem training_nears X y : mwf X -> (0 < nrows X)%nat -> length y = nrows X -> labels y -> spans X -> overlap X y -> 2 * INR (nrows X) <= 10 ^ 20 ->
  exists z k, best_fit X y z /\ 0 < k /\
    forall gd (self : LogisticRegressor R) L, (forall x, In x (mrows X) -> 1 + sqnorm x <= L) -> 0 < gd_alpha gd -> gd_alpha gd * L <= 4 -> (0 < gd_iters gd)%nat ->
    exists self' p, log_train (gd_optimize gd) self X y = (self', Ok tt) /\ log_parameters self' = Some p /\ length p = S (mcols X) /\
      let D := dist2 (repeat (1 / 2) (S (mcols X))) z in
      (k * dist2 p z <= D / (2 * gd_alpha gd * INR (gd_iters gd)) \/ k * dist2 p z <= sqrt (2 * / 10 ^ 20 / gd_alpha gd) * sqrt D).
Proof.
  intros W Hn Ly Hy Sp O Big. set (start := repeat (1 / 2) (S (mcols X))).
  destruct (fit_exists X y W Hn Ly Hy start O Sp (repeat_length _ _)) as (z & k & Lz & k0 & Bz & Kz).
  exists z, k. split; [split; auto|]. split; [exact k0|]. intros gd self L HL A0 A1 T0.
  destruct (log_gd_rate gd self X y L W Hn Ly HL A0 A1) as (self' & p & Et & Ep & Lp & Hst & Hr).
  exists self', p. split; [exact Et|]. split; [exact Ep|]. split; [exact Lp|]. intros D. specialize (Hr z Lz). cbv zeta in Hr.
  assert (ED : sumR (S (mcols X)) (fun j => (1 / 2 - nth j z 0) ^ 2) = D).
  { unfold D, dist2, start. rewrite repeat_length. apply sumR_ext. intros j Hj. now rewrite nth_repeat_lt by exact Hj. }
  rewrite ED in Hr. specialize (Kz p Lp Hst). destruct Hr as [Hr|[Hr|Hr]].
  - left. apply Rle_trans with (1 := Kz). pose proof (lt_0_INR _ T0) as T1. assert (P : 0 < 2 * gd_alpha gd * INR (gd_iters gd)) by (apply Rmult_lt_0_compat; lra).
    apply Rmult_le_reg_l with (1 := P). replace (2 * gd_alpha gd * INR (gd_iters gd) * (D / (2 * gd_alpha gd * INR (gd_iters gd)))) with D by (field; lra). exact Hr.
  - right. lra.
  - exfalso. destruct (balanced X y W Hn Ly Hy O) as (l & l1 & l0). pose proof (loss_low X y W Hn Ly Hy l l1 l0 p) as K.
    assert (E : 10 ^ 20 * / 10 ^ 20 = 1) by (apply Rinv_r, pow_nonzero; lra).
    pose proof (lt_0_INR _ Hn) as N0. assert (0 < / 10 ^ 20) by (apply Rinv_0_lt_compat, pow_lt; lra).
    set (u := / 10 ^ 20) in *. set (t := 10 ^ 20) in *. clearbody u t. nra.
Qed.
