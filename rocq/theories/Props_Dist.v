(** * C60, C61, C82, C113: probability distributions ([src/stats/dist/]) *)
From Coq Require Import Reals Lra.
From Coquelicot Require Import Coquelicot.
From Verif Require Import Base Num NumX NumFn Model_Dist Spec_Dist Proof_Dist Proof_DistEx Proof_Cdf.
Local Open Scope R_scope.

Theorem C60_pdf_logpdf : forall l : R, 0 < l -> forall x, 0 <= x ->
  exists p, exp_pdf (exponential_new l) x = Ok p /\ 0 < p /\ exp_logpdf (exponential_new l) x = Ok (ln p).
Proof. exact exp_pdf_logpdf. Qed.
Print Assumptions C60_pdf_logpdf.
Theorem C60_cdf : forall l : R, 0 < l -> exists c, (forall x, 0 <= x -> exp_cdf (exponential_new l) x = Ok (c x)) /\ c 0 = 0 /\
    (forall x, 0 <= x -> exists p, exp_pdf (exponential_new l) x = Ok p /\ derivable_pt_lim c x p) /\
    (forall x y, 0 <= x -> x < y -> c x < c y) /\ (forall x, 0 <= x -> 0 <= c x < 1) /\
    (forall eps, 0 < eps -> exists x0, 0 <= x0 /\ forall x, x0 <= x -> 1 - eps < c x).
Proof. exact exp_cdf_deriv. Qed.
Print Assumptions C60_cdf.
(** For any arithmetic; NaN is not [>= 0] either. *)
Theorem C60_panics : forall (F : Type) (N : Num F) (NF : NumFn F) (e : Exponential F) x,
  (exp_pdf e x = Panic <-> nleb nzero x = false) /\ (exp_logpdf e x = Panic <-> nleb nzero x = false) /\ (exp_cdf e x = Panic <-> nleb nzero x = false).
Proof. exact @exp_dist_panic. Qed.
Print Assumptions C60_panics.
Example C60_ex : 0 < 5 /\ 0 <= 3 /\ exp_cdf (exponential_new 5) (-1) = Panic /\ exp_cdf (exponential_new (Fin 5)) NaN = Panic.
Proof. split; [lra|]. split; [lra|]. split; [|reflexivity]. unfold exp_cdf. rewrite leb0_R' by lra. reflexivity. Qed.

Theorem C61_logpdf : forall m v : R, 0 < v -> forall x, gauss_logpdf (gaussian_new m v) x = ln (gauss_pdf (gaussian_new m v) x).
Proof. exact gauss_logpdf_R. Qed.
Print Assumptions C61_logpdf.
Theorem C61_pdf : forall m v : R, 0 < v -> forall x, gauss_pdf (gaussian_new m v) x = normal_density m v x.
Proof. exact gauss_pdf_R. Qed.
Print Assumptions C61_pdf.
Theorem C61_pdf_shape : forall m v : R, 0 < v -> forall x d, 0 < gauss_pdf (gaussian_new m v) x /\
  gauss_pdf (gaussian_new m v) (m + d) = gauss_pdf (gaussian_new m v) (m - d) /\ (x <> m -> gauss_pdf (gaussian_new m v) x < gauss_pdf (gaussian_new m v) m).
Proof. exact gauss_pdf_shape. Qed.
Print Assumptions C61_pdf_shape.
Theorem C61_cdf_shape : forall m v : R, 0 < v -> (forall x y, x < y -> gauss_cdf (gaussian_new m v) x < gauss_cdf (gaussian_new m v) y) /\
  (forall x, 0 < gauss_cdf (gaussian_new m v) x < 1) /\ gauss_cdf (gaussian_new m v) m = / 2 /\
  forall d, gauss_cdf (gaussian_new m v) (m + d) + gauss_cdf (gaussian_new m v) (m - d) = 1.
Proof. exact gauss_cdf_shape. Qed.
Print Assumptions C61_cdf_shape.
Theorem C61_constructors : forall m s : R, 0 <= s -> gaussian_from_std_dev m s = gaussian_new m (s * s).
Proof. exact gauss_constructors. Qed.
Print Assumptions C61_constructors.
Theorem C61_default : gaussian_default = gaussian_new 0 1.
Proof. exact gauss_default_standard. Qed.
Print Assumptions C61_default.
(** The documented accuracy of 0.003 is not reached. *)
Theorem C61_refuted_accuracy : 3 / 1000 < gauss_cdf gaussian_default (8 / 5) - normal_cdf 0 1 (8 / 5).
Proof. exact cdf_error. Qed.
Print Assumptions C61_refuted_accuracy.
(** C113: what holds everywhere. *)
Theorem C113_cdf_accuracy : forall m v : R, 0 < v -> forall x, Rabs (gauss_cdf (gaussian_new m v) x - normal_cdf m v x) <= 35 / 10000.
Proof. exact cdf_accuracy. Qed.
Print Assumptions C113_cdf_accuracy.
Example C61_ex : 0 < 4 /\ 0 <= 2 /\ 3 <> 10.
Proof. lra. Qed.

(** C82: samples. *)
Theorem C82_exponential : forall l : R, 0 < l -> forall n x, 0 <= n -> 0 <= x -> 0 <= exp_sample (exponential_new l) n /\
  (exp_sample (exponential_new l) n <= x <-> n <= l * x) /\ exp_cdf (exponential_new l) x = exp_cdf exponential_default (l * x).
Proof. exact exp_sample_cdf. Qed.
Print Assumptions C82_exponential.
Theorem C82_gaussian : forall m v : R, 0 < v -> forall n x, (gauss_sample (gaussian_new m v) n <= x <-> n <= (x - m) / sqrt v) /\
  gauss_cdf (gaussian_new m v) x = gauss_cdf (gaussian_new 0 1) ((x - m) / sqrt v).
Proof. exact gauss_sample_cdf. Qed.
Print Assumptions C82_gaussian.
Example C82_ex : 0 < 5 /\ 0 <= 2 /\ 0 <= 3.
Proof. lra. Qed.
