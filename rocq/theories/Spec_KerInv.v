(** * Specification: geometric changes that kernels do not see *)
From Coq Require Import List Arith Reals.
From Verif Require Import Base Num NumFn Linalg Model_Kernel.
Import ListNotations.
Local Open Scope R_scope.

(** The kernels of the library that depend on the distance of the two points only, and their sums and products. *)
Inductive distance_kernel : Kernel R -> Prop :=
| dk_squared_exp ls ampl : distance_kernel (k_squared_exp ls ampl)
| dk_exponential ls ampl : distance_kernel (k_exponential ls ampl)
| dk_multiquadric c : distance_kernel (k_multiquadric c)
| dk_rational alpha ls : distance_kernel (k_rational_quadratic alpha ls)
| dk_sum k1 k2 : distance_kernel k1 -> distance_kernel k2 -> distance_kernel (kernel_sum k1 k2)
| dk_prod k1 k2 : distance_kernel k1 -> distance_kernel k2 -> distance_kernel (kernel_prod k1 k2).
(** All kernels of the library, and their sums and products. *)
Inductive library_kernel : Kernel R -> Prop :=
| lk_distance k : distance_kernel k -> library_kernel k
| lk_linear c : library_kernel (k_linear c)
| lk_polynomial alpha c d : library_kernel (k_polynomial alpha c d)
| lk_hyper_tan alpha c : library_kernel (k_hyper_tan alpha c)
| lk_sum k1 k2 : library_kernel k1 -> library_kernel k2 -> library_kernel (kernel_sum k1 k2)
| lk_prod k1 k2 : library_kernel k1 -> library_kernel k2 -> library_kernel (kernel_prod k1 k2).

(** Inner product of points of width [n]. *)
Definition inner (n : nat) (a b : list R) : R := sumR n (fun k => nth k a 0 * nth k b 0).
(** [T] keeps inner products (rotations, reflections, other orders of the coordinates). *)
Definition rigid (n n' : nat) (T : list R -> list R) : Prop :=
  forall a b, length a = n -> length b = n -> length (T a) = n' /\ inner n' (T a) (T b) = inner n a b.
