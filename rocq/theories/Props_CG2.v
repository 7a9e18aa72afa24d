(** * C120: the line search of the conjugate gradient optimiser ([src/learning/optim/fmincg.rs]) *)
From Coq Require Import List Arith Lia Bool Reals Lra.
From Verif Require Import Base Num NumX Linalg Model_CG Spec_CG Proof_CGEx Spec_KerInv Spec_CG2 Proof_CG3 Proof_CG3Ex.
Import ListNotations.
Local Open Scope R_scope.

(** C120: the result is reached from the start by at most [iters] steps, each of which meets the strong Wolfe-Powell conditions. *)
Theorem C120_steps : forall (self : ConjugateGD X), sane self -> forall n cost f g, real_cost n cost f g ->
  forall rho sig, cg_rho self = Fin rho -> cg_sig self = Fin sig -> forall start, length start = n ->
  exists x k, cg_optimize self cost (map Fin start) = Ok (map Fin x) /\ length x = n /\ (k <= cg_iters self)%nat /\ steps (cg_step n f g rho sig) k start x.
Proof. exact optimize_steps. Qed.
Print Assumptions C120_steps.
Example C120_steps_case : sane cg_default /\ real_cost 1 square_cost square square' /\ cg_step 1 square square' (1 / 100) (1 / 2) [3] [1].
Proof. exact (conj default_sane (conj square_real square_step)). Qed.
(** A first trial point that meets the conditions is accepted, and the search goes on from there. *)
Theorem C120_progress : forall (self : ConjugateGD X), sane self -> forall n cost f g, real_cost n cost f g ->
  forall rho sig, cg_rho self = Fin rho -> cg_sig self = Fin sig -> forall start z, length start = n -> (0 < cg_iters self)%nat ->
  z = 1 / (1 + inner n (g start) (g start)) ->
  let s := map Ropp (g start) in wolfe n f g rho sig start s (inner n (g start) s) z (along start z s) ->
  exists x k, cg_optimize self cost (map Fin start) = Ok (map Fin x) /\ length x = n /\ (k < cg_iters self)%nat /\ steps (cg_step n f g rho sig) k (along start z s) x.
Proof. exact optimize_progress. Qed.
Print Assumptions C120_progress.
Example C120_progress_case : 1 / 2 = 1 / (1 + inner 1 (square' [1 / 2]) (square' [1 / 2])) /\
  wolfe 1 square square' (1 / 100) (1 / 2) [1 / 2] (map Ropp (square' [1 / 2])) (inner 1 (square' [1 / 2]) (map Ropp (square' [1 / 2]))) (1 / 2)
    (along [1 / 2] (1 / 2) (map Ropp (square' [1 / 2]))).
Proof. exact square_first. Qed.
(** The interpolated step is the local minimum of the cubic through the values and slopes at both ends. *)
Theorem C120_cubic : forall f1 (st : Search R) c0 c1 c2 c3, fits c0 c1 c2 c3 st -> ls_z3 st <> 0 -> 0 < c2 ^ 2 - 3 * c3 * c1 -> ~ f1 < ls_f2 st -> c3 <> 0 ->
  cubic' c1 c2 c3 (interp_step f1 st) = 0 /\ 0 < cubic'' c2 c3 (interp_step f1 st).
Proof. exact interp_cubic. Qed.
Print Assumptions C120_cubic.
Example C120_cubic_case : fits 0 (-3) 0 1 cubic_search /\ ls_z3 cubic_search <> 0 /\ 0 < 0 ^ 2 - 3 * 1 * -3 /\ ~ 2 < ls_f2 cubic_search.
Proof. split; [exact cubic_fits|]. cbn. repeat split; lra. Qed.
(** When the cost has risen it is the minimum of the parabola through both values with the slope at the far end. *)
Theorem C120_parabola : forall f1 (st : Search R), ls_z3 st <> 0 -> forall q0 q1 q2, f1 < ls_f2 st -> 0 < q2 ->
  q0 = ls_f2 st -> q0 + q1 * ls_z3 st + q2 * ls_z3 st ^ 2 = ls_f3 st -> q1 + 2 * q2 * ls_z3 st = ls_d3 st ->
  q1 + 2 * q2 * interp_step f1 st = 0.
Proof. exact interp_parabola. Qed.
Print Assumptions C120_parabola.
Example C120_parabola_case : 1 / 4 < ls_f2 parabola_search /\ 1 = ls_f2 parabola_search /\
  1 + 2 * ls_z3 parabola_search + 1 * ls_z3 parabola_search ^ 2 = ls_f3 parabola_search /\ 2 + 2 * 1 * ls_z3 parabola_search = ls_d3 parabola_search.
Proof. cbn. repeat split; lra. Qed.
(** The extrapolated step is the local minimum of the cubic or one of the four safeguards. *)
Theorem C120_extrapolation : forall (self : ConjugateGD R) (st : Search R) c0 c1 c2 c3, fits c0 c1 c2 c3 st -> ls_z3 st <> 0 -> 0 < c2 ^ 2 - 3 * c3 * c1 ->
  0 <= c2 \/ c1 < 0 /\ 0 < c3 ->
  exists z, cubic' c1 c2 c3 z = 0 /\ 0 < cubic'' c2 c3 z /\
    (extrap_step self st = z \/ extrap_step self st = ls_z1 st * (cg_ext self - 1) \/ extrap_step self st = (ls_limit st - ls_z1 st) / 2 \/
     extrap_step self st = - ls_z3 st * cg_int self \/ extrap_step self st = (ls_limit st - ls_z1 st) * (1 - cg_int self)).
Proof. exact extrap_cubic. Qed.
Print Assumptions C120_extrapolation.
Example C120_extrapolation_case : fits 0 (-3) 0 1 cubic_search /\ ls_z3 cubic_search <> 0 /\ 0 < 0 ^ 2 - 3 * 1 * -3 /\ -3 < 0.
Proof. split; [exact cubic_fits|]. cbn. repeat split; lra. Qed.
(** Whatever the extrapolation gives, the step is a number, is no shorter than the least one unless a limit forbids it, and no longer than the limit. *)
Theorem C120_extrapolation_bounds : forall (self : ConjugateGD X) e i st z1 z3 l, cg_ext self = Fin e -> cg_int self = Fin i -> 0 <= i ->
  ls_z1 st = Fin z1 -> ls_z3 st = Fin z3 -> ls_limit st = Fin l ->
  exists r, extrap_step self st = Fin r /\
    (l < - (1 / 2) -> r = z1 * (e - 1) \/ r = - z3 * i \/ (- z3 * i <= r /\ 0 <= r <= z1 * (e - 1))) /\
    (- (1 / 2) < l -> z1 <= l -> r = (l - z1) / 2 \/ r = - z3 * i \/ (- z3 * i <= r /\ (l - z1) * (1 - i) <= r <= l - z1)).
Proof. exact extrap_bounds. Qed.
Print Assumptions C120_extrapolation_bounds.
Example C120_extrapolation_bounds_case : cg_ext (@cg_default X _) = Fin 3 /\ cg_int (@cg_default X _) = Fin (1 / 10) /\ 0 <= 1 / 10.
Proof. destruct default_value as (_ & _ & E3 & E4 & _). split; [exact E4|]. split; [exact E3|lra]. Qed.
(** Whatever the interpolation gives, the step is a number that stays away from both ends of the bracket. *)
Theorem C120_bracket : forall (self : ConjugateGD X) i z3 z2, cg_int self = Fin i -> 0 <= i <= 1 / 2 -> z3 <= 0 ->
  exists r, interp_clamp self (Fin z3) z2 = Fin r /\ (1 - i) * z3 <= r <= i * z3.
Proof. exact bracket. Qed.
Print Assumptions C120_bracket.
Example C120_bracket_case : cg_int (@cg_default X _) = Fin (1 / 10) /\ 0 <= 1 / 10 <= 1 / 2.
Proof. split; [exact (proj1 (proj2 (proj2 default_value)))|lra]. Qed.
