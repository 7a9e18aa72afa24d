(** * C57, C78, C94: kernels ([src/learning/toolkit/kernel.rs]) *)
From Coq Require Import List Arith Lia Bool Reals Lra.
From Verif Require Import Base Num NumFn Linalg Model_Kernel Spec_Kernel Proof_Kernel Proof_Kernel2.
Import ListNotations.
Local Open Scope R_scope.

(** C57. *)
Theorem C57_symmetric : forall a c d l : R,
  symmetric (k_linear c) /\ symmetric (k_polynomial a c d) /\ symmetric (k_squared_exp l a) /\ symmetric (k_exponential l a) /\
  symmetric (k_hyper_tan a c) /\ symmetric (k_multiquadric c) /\ symmetric (k_rational_quadratic a l).
Proof. exact (fun a c d l => conj (linear_sym c) (conj (polynomial_sym a c d) (conj (squared_exp_sym l a) (conj (exponential_sym l a)
  (conj (hyper_tan_sym a c) (conj (multiquadric_sym c) (rational_sym a l))))))). Qed.
Print Assumptions C57_symmetric.
Theorem C57_symmetric_combinations : forall k1 k2 : Kernel R, symmetric k1 -> symmetric k2 ->
  symmetric (kernel_sum k1 k2) /\ symmetric (kernel_prod k1 k2).
Proof. exact (fun k1 k2 H1 H2 => conj (sum_sym k1 k2 H1 H2) (prod_sym k1 k2 H1 H2)). Qed.
Print Assumptions C57_symmetric_combinations.
Theorem C57_linear_psd : forall dim (c : R), 0 <= c -> psd_kernel dim (k_linear c).
Proof. exact linear_psd. Qed.
Print Assumptions C57_linear_psd.
Theorem C57_polynomial_psd : forall dim (a c : R) (d : nat), 0 <= a -> 0 <= c -> psd_kernel dim (k_polynomial a c (INR d)).
Proof. exact polynomial_psd. Qed.
Print Assumptions C57_polynomial_psd.
Theorem C57_squared_exp_psd : forall dim (l a : R), 0 <= a -> l <> 0 -> psd_kernel dim (k_squared_exp l a).
Proof. exact squared_exp_psd. Qed.
Print Assumptions C57_squared_exp_psd.
Theorem C57_sum_psd : forall dim (k1 k2 : Kernel R), psd_kernel dim k1 -> psd_kernel dim k2 -> psd_kernel dim (kernel_sum k1 k2).
Proof. exact sum_psd. Qed.
Print Assumptions C57_sum_psd.
Theorem C57_product_psd : forall dim (k1 k2 : Kernel R), symmetric k1 -> psd_kernel dim k1 -> psd_kernel dim k2 -> psd_kernel dim (kernel_prod k1 k2).
Proof. exact prod_psd. Qed.
Print Assumptions C57_product_psd.
(** The restriction to these kernels is needed: the multiquadric kernel is not one of them. *)
Theorem C57_multiquadric_not_psd : ~ psd_kernel 1 (k_multiquadric 0).
Proof. exact multiquadric_not_psd. Qed.
Print Assumptions C57_multiquadric_not_psd.
Theorem C57_panics : forall (F : Type) (N : Num F) (NF : NumFn F) (a c l : F) x y,
  (k_squared_exp l a x y = Panic <-> length x <> length y) /\ (k_exponential l a x y = Panic <-> length x <> length y) /\
  (k_multiquadric c x y = Panic <-> length x <> length y) /\ (k_rational_quadratic a l x y = Panic <-> length x <> length y).
Proof. exact (fun F N NF a c l x y => conj (squared_exp_panic l a x y) (conj (exponential_panic l a x y) (conj (multiquadric_panic c x y) (rational_panic a l x y)))). Qed.
Print Assumptions C57_panics.
(** The last clause of C57 fails for the kernels built on [utils::dot]: they silently use the
    common prefix of points of different dimensions. *)
Theorem C57_refuted_linear_truncates : k_linear 0 [1; 2] [3] = Ok 3 /\ length [1; 2] <> length [3].
Proof. exact (conj (f_equal Ok (eq_trans (Rplus_0_r _) (eq_trans (Rplus_0_l _) (Rmult_1_l 3)))) (Nat.neq_succ_diag_l 1)). Qed.
Print Assumptions C57_refuted_linear_truncates.
Example C57_ex : 0 <= 1 /\ (2 <> 0) /\ symmetric (k_squared_exp 2 1) /\ psd_kernel 3 (k_squared_exp 2 1) /\ psd_kernel 3 (k_linear 1) /\
  psd_kernel 3 (kernel_prod (k_squared_exp 2 1) (k_linear 1)).
Proof.
  assert (P1 : psd_kernel 3 (k_squared_exp 2 1)) by (apply squared_exp_psd; lra). assert (P2 : psd_kernel 3 (k_linear 1)) by (apply linear_psd; lra).
  repeat split; try lra; auto using squared_exp_sym. apply prod_psd; auto using squared_exp_sym.
Qed.

(** C78. *)
Theorem C78_squared_exp : forall (l a : R) x y, 0 < a -> l <> 0 -> length x = length y ->
  exists v, k_squared_exp l a x y = Ok v /\ 0 < v <= a /\ k_squared_exp l a x x = Ok a.
Proof. exact squared_exp_bounds. Qed.
Print Assumptions C78_squared_exp.
Theorem C78_exponential : forall (l a : R) x y, 0 < a -> l <> 0 -> length x = length y ->
  exists v, k_exponential l a x y = Ok v /\ 0 < v <= a /\ k_exponential l a x x = Ok a.
Proof. exact exponential_bounds. Qed.
Print Assumptions C78_exponential.
Theorem C78_rational_quadratic : forall (a l : R) x y, 0 < a -> l <> 0 -> length x = length y ->
  exists v, k_rational_quadratic a l x y = Ok v /\ 0 < v <= 1 /\ k_rational_quadratic a l x x = Ok 1.
Proof. exact rational_bounds. Qed.
Print Assumptions C78_rational_quadratic.
Example C78_ex : 0 < 1 /\ 2 <> 0 /\ length [1; 2] = length [3; 4].
Proof. repeat split; lra. Qed.

(** C94. *)
Theorem C94_exponential_psd : forall dim (l a : R), 0 <= a -> l <> 0 -> psd_kernel dim (k_exponential l a).
Proof. exact exponential_psd. Qed.
Print Assumptions C94_exponential_psd.
Theorem C94_rational_quadratic_psd : forall dim (a l : R), 0 < a -> l <> 0 -> psd_kernel dim (k_rational_quadratic a l).
Proof. exact rational_psd. Qed.
Print Assumptions C94_rational_quadratic_psd.
Theorem C94_multiquadric_never_psd : forall dim (c : R), (0 < dim)%nat -> ~ psd_kernel dim (k_multiquadric c).
Proof. exact multiquadric_never_psd. Qed.
Print Assumptions C94_multiquadric_never_psd.
Theorem C94_hyper_tan_not_psd : forall dim (a c : R), c < 0 -> ~ psd_kernel dim (k_hyper_tan a c).
Proof. exact hyper_tan_not_psd. Qed.
Print Assumptions C94_hyper_tan_not_psd.
Example C94_ex : 0 <= 3 /\ 0 < 2 /\ (2 <> 0) /\ (0 < 5)%nat /\ -1 < 0 /\ psd_kernel 5 (kernel_sum (k_exponential 2 3) (k_rational_quadratic 2 2)).
Proof. repeat split; try lra; try lia. apply sum_psd; [apply exponential_psd|apply rational_psd]; lra. Qed.
