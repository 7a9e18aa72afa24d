(** * C177: densities integrate to one, with the mean and variance of the parameters *)
From Coq Require Import Reals Lra.
From Coquelicot Require Import Coquelicot.
From Verif Require Import Base Num NumFn NumSign Model_Dist Spec_Dist Proof_DistMass.
Local Open Scope R_scope.

(** The exponential distribution: [cdf] is the integral of [pdf], the total mass is 1, the mean [1/lambda] and the variance [1/lambda^2]. *)
Theorem C177_exponential : forall l : R, 0 < l -> exists p, (forall x, 0 <= x -> exp_pdf (exponential_new l) x = Ok (p x)) /\
  (forall x, 0 <= x -> exists c, exp_cdf (exponential_new l) x = Ok c /\ is_RInt p 0 x c) /\
  is_RInt_gen p (at_point 0) (Rbar_locally p_infty) 1 /\
  is_RInt_gen (fun x => x * p x) (at_point 0) (Rbar_locally p_infty) (/ l) /\
  is_RInt_gen (fun x => (x - / l) ^ 2 * p x) (at_point 0) (Rbar_locally p_infty) (/ l ^ 2).
Proof. exact exp_moments. Qed.
Print Assumptions C177_exponential.
(** Having waited [s] does not change how long one still has to wait. *)
Theorem C177_memoryless : forall l : R, 0 < l -> forall s t, 0 <= s -> 0 <= t -> exists cs ct cst,
  exp_cdf (exponential_new l) s = Ok cs /\ exp_cdf (exponential_new l) t = Ok ct /\ exp_cdf (exponential_new l) (s + t) = Ok cst /\ 1 - cst = (1 - cs) * (1 - ct).
Proof. exact (fun l _ => exp_memoryless l). Qed.
Print Assumptions C177_memoryless.
Example C177_ex : 0 < 5 /\ exp_cdf (exponential_new 5) 0 <> Panic.
Proof. split; [lra|]. unfold exp_cdf, rassert. destruct (nleb _ _) eqn:E; [discriminate|]. cbn in E. destruct (Rle_dec 0 0); [discriminate|lra]. Qed.
(** The Gaussian density: total mass 1, mean [mean], variance [variance]. *)
Theorem C177_gaussian : forall m v : R, 0 < v ->
  is_RInt_gen (gauss_pdf (gaussian_new m v)) (Rbar_locally m_infty) (Rbar_locally p_infty) 1 /\
  is_RInt_gen (fun x => x * gauss_pdf (gaussian_new m v) x) (Rbar_locally m_infty) (Rbar_locally p_infty) m /\
  is_RInt_gen (fun x => (x - m) ^ 2 * gauss_pdf (gaussian_new m v) x) (Rbar_locally m_infty) (Rbar_locally p_infty) v.
Proof. exact (fun m v H => conj (gauss_mass m v H) (conj (gauss_mean m v H) (gauss_variance m v H))). Qed.
Print Assumptions C177_gaussian.
(** The mass below [x] exists, is [normal_cdf] (the specification used by C61 and C113), and [cdf] is within 0.0035 of it. *)
Theorem C177_gaussian_cdf : forall m v : R, 0 < v -> forall x,
  is_RInt_gen (gauss_pdf (gaussian_new m v)) (Rbar_locally m_infty) (at_point x) (normal_cdf m v x) /\
  forall p, is_RInt_gen (gauss_pdf (gaussian_new m v)) (Rbar_locally m_infty) (at_point x) p -> Rabs (gauss_cdf (gaussian_new m v) x - p) <= 35 / 10000.
Proof. exact (fun m v H x => conj (normal_cdf_mass m v H x) (fun p => cdf_vs_mass m v H x p)). Qed.
Print Assumptions C177_gaussian_cdf.
Example C177_gaussian_ex : 0 < 4 /\ normal_cdf 3 4 3 = / 2.
Proof. split; [lra|]. unfold normal_cdf. rewrite RInt_point. unfold zero. simpl. ring. Qed.
