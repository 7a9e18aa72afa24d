(** * Model of [src/stats/dist/] *)
From Coq Require Import Bool.
From Verif Require Import Base Num NumFn NumSign.
Local Open Scope num_scope.

Section Dist.
  Context {F : Type} {N : Num F} {NF : NumFn F}.

  (** ** exponential.rs *)
  (** exponential.rs lines 12-16, constructors lines 23-34, accessor lines 37-39. *)
  Record Exponential := exponential_new { lambda : F }.
  (** exponential.rs lines 23-27. *)
  Definition exponential_default : Exponential := exponential_new nonev.
  (** exponential.rs lines 57-60. *)
  Definition exp_pdf (self : Exponential) (x : F) : res F :=
    rassert (x >=? nzero) (Ok (nexp (- x * lambda self) * lambda self)).
  (** exponential.rs lines 78-82. *)
  Definition exp_logpdf (self : Exponential) (x : F) : res F :=
    rassert (x >=? nzero) (Ok (nln (lambda self) - (x * lambda self))).
  (** exponential.rs lines 99-102. *)
  Definition exp_cdf (self : Exponential) (x : F) : res F :=
    rassert (x >=? nzero) (Ok (nonev - nexp (- x * lambda self))).
  (** exponential.rs lines 111-116; [n] is the draw of [Exp1]. *)
  Definition exp_sample (self : Exponential) (n : F) : F := n / lambda self.

  (** ** gaussian.rs *)
  Definition two : F := nonev + nonev.
  (** The literals 2.0 (gaussian.rs lines 89, 110, 111) and 0.5 (line 141). *)
  Definition half : F := nonev / two.
  (** mod.rs lines 10-15.  The code writes the decimal expansions of these two constants. *)
  Definition sqrt_2_pi : F := nsqrt (two * npi).
  (** mod.rs line 14. *)
  Definition ln_2_pi : F := nln (two * npi).
  (** gaussian.rs lines 22-26. *)
  Record Gaussian := { g_mean : F; g_variance : F; g_std_dev : F }.
  (** gaussian.rs lines 35-43. *)
  Definition gaussian_default : Gaussian := {| g_mean := nzero; g_variance := nonev; g_std_dev := nonev |}.
  (** gaussian.rs lines 48-54. *)
  Definition gaussian_new (mean variance : F) : Gaussian := {| g_mean := mean; g_variance := variance; g_std_dev := nsqrt variance |}.
  (** gaussian.rs lines 58-64. *)
  Definition gaussian_from_std_dev (mean std_dev : F) : Gaussian :=
    {| g_mean := mean; g_variance := std_dev * std_dev; g_std_dev := std_dev |}.
  (** gaussian.rs lines 88-91. *)
  Definition gauss_pdf (self : Gaussian) (x : F) : F :=
    nexp (- (x - g_mean self) * (x - g_mean self) / (two * g_variance self)) / (sqrt_2_pi * g_std_dev self).
  (** gaussian.rs lines 109-112. *)
  Definition gauss_logpdf (self : Gaussian) (x : F) : F :=
    - nln (g_std_dev self) - (ln_2_pi / two) - ((x - g_mean self) * (x - g_mean self) / (two * g_variance self)).
  (** gaussian.rs lines 140-147. *)
  Definition gauss_cdf (self : Gaussian) (x : F) : F :=
    half * (nonev + nsignum (x - g_mean self) *
      nsqrt (nonev - nexp (- (two / npi) * (x - g_mean self) * (x - g_mean self) / g_variance self))).
  (** gaussian.rs lines 156-161; [n] is the draw of [StandardNormal]. *)
  Definition gauss_sample (self : Gaussian) (n : F) : F := g_mean self + g_std_dev self * n.
End Dist.
Arguments Exponential : clear implicits. Arguments Gaussian : clear implicits.
