(** Positive semidefiniteness of the [Exponential] and [RationalQuadratic] kernels. *)
From Coq Require Import List Arith Lia Bool Reals Lra.
From Verif Require Import Base BaseLemmas Num NumFn Linalg LinalgR MatR Proof_KMeans Model_Optim Proof_Optim Proof_PSD Proof_PSD2 Model_Kernel Spec_Kernel Proof_Kernel.
Import ListNotations.
Local Open Scope R_scope.

Lemma cndf_sqdist n dim (x : nat -> list R) : (forall i, (i < n)%nat -> length (x i) = dim) -> cndf n (fun i j => sqdist (x i) (x j)).
Proof.
  intros L c Hc. rewrite (qf_ext n _ (fun i j => (dot (x i) (x i) + dot (x j) (x j)) + (-2) * dot (x i) (x j)) c c); auto.
  - rewrite (qf_plus n (fun i j => dot (x i) (x i) + dot (x j) (x j))), (qf_plus n (fun i _ => dot (x i) (x i))), qf_left, qf_right, qf_scal, Hc.
    pose proof (psdf_dot n dim x L c). lra.
  - intros i j Hi Hj. rewrite <- sqdist_dot, sq_expand by (rewrite !L; auto). ring.
Qed.
Lemma sqdist_sym x y : length x = length y -> sqdist x y = sqdist y x.
Proof. intros L. unfold sqdist. rewrite L. apply sumR_ext. intros. ring. Qed.

Lemma exponential_psd dim l a : 0 <= a -> l <> 0 -> psd_kernel dim (k_exponential l a).
Proof.
  intros Ha Hl. assert (Pl : 0 < / (2 * l * l)) by (apply Rinv_0_lt_compat; nra).
  apply (psd_of dim _ (fun x y => a * exp (- (/ (2 * l * l) * sqrt (sqdist x y))))).
  - intros x y Lx Ly. unfold k_exponential. rewrite rvsub_R. unfold rassert. rewrite Lx, Ly, Nat.eqb_refl. cbn [rbind].
    unfold norm2. rewrite sqdist_dot by congruence. cbn [nmul nexp ndiv nopp nsqrt NumR NumFnR]. unfold two. cbn [nadd nonev NumR].
    do 3 f_equal. field. auto.
  - intros n x L. apply psdf_scal; auto.
    apply (schoenberg n (fun i j => / (2 * l * l) * sqrt (sqdist (x i) (x j)))).
    + intros i j Hi Hj. rewrite sqdist_sym; auto. rewrite !L; auto.
    + apply cndf_scal; [lra|]. apply (cndf_sqrt n (fun i j => sqdist (x i) (x j))).
      * intros i j Hi Hj. apply sqdist_sym. rewrite !L; auto.
      * now apply (cndf_sqdist n dim).
      * intros. apply sqdist_ge0.
Qed.
Lemma rational_psd dim a l : 0 < a -> l <> 0 -> psd_kernel dim (k_rational_quadratic a l).
Proof.
  intros Ha Hl. assert (Pm : 0 < / (2 * a * l * l)). { apply Rinv_0_lt_compat. assert (0 < l * l) by nra. rewrite Rmult_assoc. apply Rmult_lt_0_compat; lra. }
  apply (psd_of dim _ (fun x y => exp (- (a * ln (1 + / (2 * a * l * l) * sqdist x y))))).
  - intros x y Lx Ly. unfold k_rational_quadratic. rewrite rvsub_R. rewrite Lx, Ly, Nat.eqb_refl. cbn [rbind].
    rewrite sqdist_dot by congruence. unfold two. cbn [nmul npowf ndiv nopp nadd nonev NumR NumFnR].
    pose proof (sqdist_ge0 x y). unfold Rpowf.
    replace (sqdist x y / ((1 + 1) * a * l * l)) with (/ (2 * a * l * l) * sqdist x y) by (field; lra).
    destruct (Rlt_dec 0 _) as [_|N]; [|exfalso; apply N; nra]. unfold Rpower. f_equal. f_equal. ring.
  - intros n x L.
    assert (Sy : symf n (fun i j => / (2 * a * l * l) * sqdist (x i) (x j))).
    { intros i j Hi Hj. rewrite sqdist_sym; auto. rewrite !L; auto. }
    apply (schoenberg n (fun i j => a * ln (1 + / (2 * a * l * l) * sqdist (x i) (x j)))).
    + intros i j Hi Hj. pose proof (Sy i j Hi Hj) as E. cbv beta in E. now rewrite E.
    + apply cndf_scal; [lra|]. apply (cndf_ln n (fun i j => / (2 * a * l * l) * sqdist (x i) (x j))); auto.
      * apply cndf_scal; [lra|]. now apply (cndf_sqdist n dim).
      * intros i j _ _. pose proof (sqdist_ge0 (x i) (x j)). nra.
Qed.

(** Neither of the other two kernels is positive semidefinite in general. *)
Lemma multiquadric_never_psd dim c : (0 < dim)%nat -> ~ psd_kernel dim (k_multiquadric c).
Proof.
  intros Hd P. pose (e := fun i : nat => INR i :: repeat 0 (dim - 1)).
  destruct (P 2%nat e) as [K [E Q]]. { intros i _. cbn. rewrite repeat_length. lia. }
  assert (V : forall i j, k_multiquadric c (e i) (e j) = Ok (sqrt ((INR i - INR j) ^ 2 + c * c))).
  { intros i j. unfold k_multiquadric, rvsub, rassert. unfold e at 1 2. cbn [length]. rewrite Nat.eqb_refl. cbn [rbind].
    unfold e at 1 2. cbn [length]. rewrite Nat.eqb_refl. cbn [rbind]. f_equal. cbv zeta.
    unfold norm2. cbn [nsqrt nadd nmul NumR]. set (s := dot _ _). assert (Es : s = (INR i - INR j) ^ 2).
    { unfold s. rewrite sqdist_dot by reflexivity. unfold sqdist, e. cbn [length]. rewrite repeat_length.
      rewrite (sumR_single _ _ 0%nat); [reflexivity|lia|].
      intros k _ Hk. destruct k; [lia|]. cbn [nth]. rewrite !nth_repeat. ring. }
    rewrite sqrt_sqrt by (rewrite Es; apply pow2_ge_0). now rewrite Es. }
  assert (EK : forall i j, (i < 2)%nat -> (j < 2)%nat -> K i j = sqrt ((INR i - INR j) ^ 2 + c * c)).
  { intros i j Hi Hj. pose proof (E i j Hi Hj) as A. rewrite V in A. now injection A. }
  specialize (Q (fun i => if (i =? 0)%nat then 1 else -1)). cbn [sumR Nat.eqb] in Q. rewrite !EK in Q by lia. cbn [INR] in Q.
  replace ((0 - 0) ^ 2 + c * c) with (c * c) in Q by ring. replace ((1 - 1) ^ 2 + c * c) with (c * c) in Q by ring.
  replace ((0 - 1) ^ 2 + c * c) with (1 + c * c) in Q by ring. replace ((1 - 0) ^ 2 + c * c) with (1 + c * c) in Q by ring.
  pose proof (sqrt_lt_1 (c * c) (1 + c * c) ltac:(nra) ltac:(nra) ltac:(lra)). lra.
Qed.
Lemma hyper_tan_not_psd dim a c : c < 0 -> ~ psd_kernel dim (k_hyper_tan a c).
Proof.
  intros Hc P. destruct (P 1%nat (fun _ => repeat 0 dim)) as [K [E Q]]. { intros. apply repeat_length. }
  specialize (E 0%nat 0%nat ltac:(lia) ltac:(lia)). specialize (Q (fun _ => 1)). cbn [sumR] in Q.
  unfold k_hyper_tan in E. injection E as E. cbn [ntanh nadd nmul NumR NumFnR] in E.
  assert (Z : dot (repeat 0 dim) (repeat 0 dim) = 0).
  { rewrite (dot_sumR dim) by apply repeat_length. apply sumR_zero. intros. rewrite nth_repeat. ring. }
  rewrite Z in E. replace (a * 0 + c) with c in E by ring.
  assert (tanh c < 0). { unfold tanh. assert (Hp : 0 < cosh c) by (unfold cosh; pose proof (exp_pos c); pose proof (exp_pos (- c)); lra).
    assert (sinh c < 0) by (unfold sinh; pose proof (exp_increasing c (- c) ltac:(lra)); lra).
    unfold Rdiv. assert (0 < / cosh c) by (now apply Rinv_0_lt_compat). nra. }
  lra.
Qed.
