(** Lemmas for [Props_Kernel]. *)
From Coq Require Import List Arith Lia Bool Reals Lra.
From Verif Require Import Base BaseLemmas Num NumFn Linalg LinalgR MatR Proof_KMeans Model_Optim Proof_Optim Proof_PSD Model_Kernel Spec_Kernel.
Import ListNotations.
Local Open Scope R_scope.

Lemma rvsub_R (x y : list R) : rvsub x y = if (length x =? length y)%nat then Ok (vsub x y) else Panic.
Proof. reflexivity. Qed.
Lemma dot_comm' (u v : list R) : dot u v = dot v u.
Proof.
  unfold dot, vsum. f_equal. revert v. induction u as [|a u IH]; intros [|b v]; cbn; auto. f_equal; [ring|apply IH].
Qed.
Lemma vsub_sq_sym (x y : list R) : dot (vsub x y) (vsub x y) = dot (vsub y x) (vsub y x).
Proof.
  unfold dot, vsum. f_equal. revert y. induction x as [|a x IH]; intros [|b y]; cbn; auto. f_equal; [ring|apply IH].
Qed.
Lemma sqdist_dot (x y : list R) : length x = length y -> dot (vsub x y) (vsub x y) = sqdist x y.
Proof.
  intros L. unfold sqdist. rewrite (dot_sumR (length x)) by (apply vsub_len'; auto). apply sumR_ext. intros i _.
  assert (E : nth i (vsub x y) 0 = nth i x 0 - nth i y 0).
  { revert y i L. induction x as [|a x IH]; intros [|b y] [|i] L; try discriminate; cbn; try lra. apply IH. now injection L. }
  rewrite E. ring.
Qed.

Lemma sum_sym k1 k2 : symmetric (F := R) k1 -> symmetric k2 -> symmetric (kernel_sum k1 k2).
Proof. intros S1 S2 x y. unfold kernel_sum. now rewrite (S1 x y), (S2 x y). Qed.
Lemma prod_sym k1 k2 : symmetric (F := R) k1 -> symmetric k2 -> symmetric (kernel_prod k1 k2).
Proof. intros S1 S2 x y. unfold kernel_prod. now rewrite (S1 x y), (S2 x y). Qed.
Lemma linear_sym (c : R) : symmetric (k_linear c).
Proof. intros x y. unfold k_linear. now rewrite dot_comm'. Qed.
Lemma polynomial_sym (a c d : R) : symmetric (k_polynomial a c d).
Proof. intros x y. unfold k_polynomial. now rewrite dot_comm'. Qed.
Lemma hyper_tan_sym (a c : R) : symmetric (k_hyper_tan a c).
Proof. intros x y. unfold k_hyper_tan. now rewrite dot_comm'. Qed.
Ltac ker_sym x y := rewrite !rvsub_R; unfold rassert, norm2; rewrite (Nat.eqb_sym (length y)); destruct (_ =? _)%nat; cbn [rbind]; auto; now rewrite (vsub_sq_sym x y).
Lemma squared_exp_sym (l a : R) : symmetric (k_squared_exp l a).
Proof. intros x y. unfold k_squared_exp. ker_sym x y. Qed.
Lemma exponential_sym (l a : R) : symmetric (k_exponential l a).
Proof. intros x y. unfold k_exponential. ker_sym x y. Qed.
Lemma multiquadric_sym (c : R) : symmetric (k_multiquadric c).
Proof. intros x y. unfold k_multiquadric. ker_sym x y. Qed.
Lemma rational_sym (a l : R) : symmetric (k_rational_quadratic a l).
Proof. intros x y. unfold k_rational_quadratic. ker_sym x y. Qed.

(** Positive semidefiniteness. *)
Lemma psd_of dim (k : list R -> list R -> res R) (K : list R -> list R -> R) :
  (forall x y, length x = dim -> length y = dim -> k x y = Ok (K x y)) ->
  (forall n (x : nat -> list R), (forall i, (i < n)%nat -> length (x i) = dim) -> psdf n (fun i j => K (x i) (x j))) -> psd_kernel dim k.
Proof. intros E P n x L. exists (fun i j => K (x i) (x j)). split; [intros; apply E; auto|]. apply (P n x L). Qed.
Lemma psdf_dot n dim (x : nat -> list R) : (forall i, (i < n)%nat -> length (x i) = dim) -> psdf n (fun i j => dot (x i) (x j)).
Proof.
  intros L. apply (psdf_ext n (fun i j => sumR dim (fun k => nth k (x i) 0 * nth k (x j) 0))).
  - intros i j Hi Hj. symmetry. apply dot_sumR; auto.
  - apply (psdf_sum n dim (fun k i j => nth k (x i) 0 * nth k (x j) 0)). intros k _. apply (psdf_rank1 n (fun i => nth k (x i) 0)).
Qed.
Lemma psdf_const n a : 0 <= a -> psdf n (fun _ _ => a).
Proof. intros H. apply (psdf_ext n (fun i j => a * (1 * 1))); [intros; ring|]. apply psdf_scal; auto. apply (psdf_rank1 n (fun _ => 1)). Qed.
Lemma linear_psd dim c : 0 <= c -> psd_kernel dim (k_linear c).
Proof.
  intros H. apply (psd_of dim _ (fun x y => dot x y + c)); [reflexivity|]. intros n x L. apply psdf_plus; [now apply (psdf_dot n dim)|now apply psdf_const].
Qed.
Lemma powf_nat (x : R) (d : nat) : Rpowf x (INR d) = x ^ d.
Proof.
  unfold Rpowf. destruct (Rlt_dec 0 x) as [H|H]. { now apply Rpower_pow. }
  assert (E : Int_part (INR d) = Z.of_nat d). { rewrite INR_IZR_INZ. unfold Int_part. rewrite <- (up_tech (IZR (Z.of_nat d)) (Z.of_nat d)); try lia; try lra. rewrite plus_IZR. lra. }
  rewrite E. destruct (Req_EM_T _ _) as [_|N]. { symmetry. apply pow_powerRZ. } exfalso. apply N. now rewrite <- INR_IZR_INZ.
Qed.
Lemma polynomial_psd dim a c (d : nat) : 0 <= a -> 0 <= c -> psd_kernel dim (k_polynomial a c (INR d)).
Proof.
  intros Ha Hc. apply (psd_of dim _ (fun x y => (a * dot x y + c) ^ d)).
  - intros x y _ _. unfold k_polynomial. cbn [npowf NumFnR nmul nadd NumR]. now rewrite powf_nat.
  - intros n x L. apply (psdf_pow n (fun i j => a * dot (x i) (x j) + c)). { intros i j _ _. now rewrite dot_comm'. }
    apply psdf_plus; [|now apply psdf_const]. apply psdf_scal; auto. now apply (psdf_dot n dim).
Qed.
Lemma sq_expand (x y : list R) : length x = length y -> dot (vsub x y) (vsub x y) = dot x x + dot y y - 2 * dot x y.
Proof.
  intros L. rewrite sqdist_dot by auto. unfold sqdist.
  rewrite (dot_sumR (length x) x x), (dot_sumR (length x) y y), (dot_sumR (length x) x y) by auto.
  rewrite <- sumR_scal, <- sumR_plus, <- sumR_minus. apply sumR_ext. intros. ring.
Qed.
Lemma squared_exp_R (l a : R) x y : length x = length y -> k_squared_exp l a x y = Ok (a * exp (- sqdist x y / (2 * l * l))).
Proof.
  intros L. unfold k_squared_exp. rewrite rvsub_R. unfold rassert. rewrite L, Nat.eqb_refl. cbn [rbind]. rewrite sqdist_dot by auto.
  cbn [nmul nexp ndiv nopp NumR NumFnR]. unfold two. cbn [nadd nonev NumR]. reflexivity.
Qed.
Lemma squared_exp_psd dim l a : 0 <= a -> l <> 0 -> psd_kernel dim (k_squared_exp l a).
Proof.
  intros Ha Hl. apply (psd_of dim _ (fun x y => a * exp (- sqdist x y / (2 * l * l)))).
  - intros x y Lx Ly. apply squared_exp_R. congruence.
  - intros n x L. apply psdf_scal; auto.
    apply (psdf_ext n (fun i j => exp (- dot (x i) (x i) / (2 * l * l)) * exp (- dot (x j) (x j) / (2 * l * l)) * exp (/ (l * l) * dot (x i) (x j)))).
    + intros i j Hi Hj. rewrite <- !exp_plus. f_equal. rewrite <- sqdist_dot, sq_expand by (rewrite !L; auto). field. auto.
    + apply (psdf_diag n (fun i j => exp (/ (l * l) * dot (x i) (x j))) (fun i => exp (- dot (x i) (x i) / (2 * l * l)))).
      apply (psdf_exp n (fun i j => / (l * l) * dot (x i) (x j))). { intros i j _ _. now rewrite dot_comm'. }
      apply psdf_scal. { left. apply Rinv_0_lt_compat. nra. } now apply (psdf_dot n dim).
Qed.
Lemma sum_psd dim k1 k2 : psd_kernel dim k1 -> psd_kernel dim k2 -> psd_kernel dim (kernel_sum k1 k2).
Proof.
  intros P1 P2 n x L. destruct (P1 n x L) as [K1 [E1 Q1]], (P2 n x L) as [K2 [E2 Q2]].
  exists (fun i j => K1 i j + K2 i j). split. { intros i j Hi Hj. unfold kernel_sum. rewrite E1, E2 by auto. reflexivity. }
  apply psdf_plus; auto.
Qed.
Lemma prod_psd dim k1 k2 : symmetric k1 -> psd_kernel dim k1 -> psd_kernel dim k2 -> psd_kernel dim (kernel_prod k1 k2).
Proof.
  intros Sy P1 P2 n x L. destruct (P1 n x L) as [K1 [E1 Q1]], (P2 n x L) as [K2 [E2 Q2]].
  exists (fun i j => K1 i j * K2 i j). split. { intros i j Hi Hj. unfold kernel_prod. rewrite E1, E2 by auto. reflexivity. }
  apply psdf_mult; auto. intros i j Hi Hj. pose proof (E1 i j Hi Hj) as A. rewrite Sy, (E1 j i Hj Hi) in A. now injection A.
Qed.

(** Panics. *)
Section Panics.
  Context {F : Type} {N : Num F} {NF : NumFn F}.
  Lemma squared_exp_panic (l a : F) x y : k_squared_exp l a x y = Panic <-> length x <> length y.
  Proof. unfold k_squared_exp, rvsub, rassert. destruct (Nat.eqb_spec (length x) (length y)); cbn; split; intros; try discriminate; auto; contradiction. Qed.
  Lemma exponential_panic (l a : F) x y : k_exponential l a x y = Panic <-> length x <> length y.
  Proof. unfold k_exponential, rvsub, rassert. destruct (Nat.eqb_spec (length x) (length y)); cbn; split; intros; try discriminate; auto; contradiction. Qed.
  Lemma multiquadric_panic (c : F) x y : k_multiquadric c x y = Panic <-> length x <> length y.
  Proof. unfold k_multiquadric, rvsub, rassert. destruct (Nat.eqb_spec (length x) (length y)); cbn; split; intros; try discriminate; auto; contradiction. Qed.
  Lemma rational_panic (a l : F) x y : k_rational_quadratic a l x y = Panic <-> length x <> length y.
  Proof. unfold k_rational_quadratic, rvsub, rassert. destruct (Nat.eqb_spec (length x) (length y)); cbn; split; intros; try discriminate; auto; contradiction. Qed.
End Panics.

(** Bounds. *)
Lemma sqdist_ge0 x y : 0 <= sqdist x y.
Proof. apply sumR_ge0. intros. apply pow2_ge_0. Qed.
Lemma exp_le_1 t : t <= 0 -> exp t <= 1.
Proof. intros H. rewrite <- exp_0. destruct H as [H| ->]; [left; now apply exp_increasing|right; auto]. Qed.
Lemma div_neg s m : 0 <= s -> 0 < m -> - s / m <= 0.
Proof. intros Hs Hm. unfold Rdiv. assert (0 < / m) by now apply Rinv_0_lt_compat. nra. Qed.
Theorem squared_exp_bounds (l a : R) x y : 0 < a -> l <> 0 -> length x = length y ->
  exists v, k_squared_exp l a x y = Ok v /\ 0 < v <= a /\ k_squared_exp l a x x = Ok a.
Proof.
  intros Ha Hl L. eexists. split; [now apply squared_exp_R|]. split.
  - pose proof (exp_pos (- sqdist x y / (2 * l * l))). assert (exp (- sqdist x y / (2 * l * l)) <= 1) by (apply exp_le_1, div_neg; [apply sqdist_ge0|nra]). nra.
  - rewrite squared_exp_R by auto. f_equal. unfold sqdist. rewrite sumR_zero by (intros; ring).
    replace (- 0 / (2 * l * l)) with 0 by (field; auto). rewrite exp_0. ring.
Qed.
Lemma norm2_ge0 (v : list R) : 0 <= norm2 v.
Proof. apply sqrt_pos. Qed.
Theorem exponential_bounds (l a : R) x y : 0 < a -> l <> 0 -> length x = length y ->
  exists v, k_exponential l a x y = Ok v /\ 0 < v <= a /\ k_exponential l a x x = Ok a.
Proof.
  intros Ha Hl L. unfold k_exponential. rewrite !rvsub_R. unfold rassert. rewrite L, Nat.eqb_refl. cbn [rbind].
  eexists. split; [reflexivity|]. unfold two. cbn [nadd nonev nmul nexp ndiv nopp NumR NumFnR]. split.
  - set (t := - norm2 (vsub x y) / _). assert (t <= 0) by (apply div_neg; [apply norm2_ge0|nra]). pose proof (exp_pos t). pose proof (exp_le_1 t H). nra.
  - f_equal. unfold norm2. cbn [nsqrt NumR]. rewrite sqdist_dot by auto. unfold sqdist. rewrite sumR_zero by (intros; ring). rewrite sqrt_0.
    replace (- 0 / ((1 + 1) * l * l)) with 0 by (field; auto). rewrite exp_0. ring.
Qed.
Theorem rational_bounds (a l : R) x y : 0 < a -> l <> 0 -> length x = length y ->
  exists v, k_rational_quadratic a l x y = Ok v /\ 0 < v <= 1 /\ k_rational_quadratic a l x x = Ok 1.
Proof.
  intros Ha Hl L. unfold k_rational_quadratic. rewrite !rvsub_R, L, !Nat.eqb_refl. cbn [rbind].
  eexists. split; [reflexivity|]. unfold two. cbn [nadd nonev nmul npowf ndiv nopp NumR NumFnR]. rewrite !sqdist_dot by auto.
  assert (Pl : 0 < l * l) by nra. assert (Pm : 0 < (1 + 1) * a * l * l) by (rewrite Rmult_assoc; apply Rmult_lt_0_compat; lra). split.
  - set (t := sqdist x y / _). assert (Ht : 0 <= t). { unfold t, Rdiv. assert (0 < / ((1 + 1) * a * l * l)) by now apply Rinv_0_lt_compat. pose proof (sqdist_ge0 x y). nra. }
    unfold Rpowf. destruct (Rlt_dec 0 (1 + t)) as [_|]; [|lra]. unfold Rpower. split; [apply exp_pos|].
    apply exp_le_1. assert (0 <= ln (1 + t)). { rewrite <- ln_1. destruct (Req_dec t 0) as [->|]; [rewrite Rplus_0_r; lra|]. left. apply ln_increasing; lra. } nra.
  - f_equal. unfold sqdist. rewrite sumR_zero by (intros; ring). unfold Rdiv. rewrite Rmult_0_l, Rplus_0_r.
    unfold Rpowf. destruct (Rlt_dec 0 1) as [_|]; [|lra]. unfold Rpower. rewrite ln_1, Rmult_0_r. apply exp_0.
Qed.
(** The multiquadric kernel is not positive semidefinite. *)
Theorem multiquadric_not_psd : ~ psd_kernel 1 (k_multiquadric 0).
Proof.
  intros P. destruct (P 2%nat (fun i => [INR i]) (fun i _ => eq_refl)) as [K [E Q]].
  assert (V : forall i j, k_multiquadric 0 [INR i] [INR j] = Ok (Rabs (INR i - INR j))).
  { intros i j. unfold k_multiquadric, rvsub, rassert. cbn [length Nat.eqb rbind]. f_equal.
    unfold norm2. cbn [nsqrt nadd nmul NumR]. set (s := dot _ _). assert (Es : s = (INR i - INR j)²) by (unfold s, dot, vsum, Rsqr; cbn; ring).
    rewrite Es, sqrt_Rsqr_abs. replace (Rabs (INR i - INR j) * Rabs (INR i - INR j) + 0 * 0) with (Rabs (INR i - INR j))² by (unfold Rsqr; ring).
    rewrite sqrt_Rsqr_abs. apply Rabs_pos_eq, Rabs_pos. }
  assert (EK : forall i j, (i < 2)%nat -> (j < 2)%nat -> K i j = Rabs (INR i - INR j)).
  { intros i j Hi Hj. pose proof (E i j Hi Hj) as A. rewrite V in A. now injection A. }
  specialize (Q (fun i => if (i =? 0)%nat then 1 else -1)). cbn [sumR Nat.eqb] in Q.
  rewrite !EK in Q by lia. cbn [INR] in Q.
  rewrite (Rabs_pos_eq (0 - 0)), (Rabs_pos_eq (1 - 1)), (Rabs_pos_eq (1 - 0)), (Rabs_left (0 - 1)) in Q by lra. lra.
Qed.
