(** * Concrete cases for the line search of the conjugate gradient optimiser *)
From Coq Require Import List Arith Lia Bool Reals Lra.
From Verif Require Import Base Num NumX Linalg Model_CG Spec_CG Proof_CGEx Spec_KerInv Spec_CG2.
Import ListNotations.
Local Open Scope R_scope.

(** The square as a real function. *)
Definition square (v : list R) : R := match v with [x] => x * x | _ => 0 end.
Definition square' (v : list R) : list R := match v with [x] => [x + x] | _ => [] end.
Lemma square_real : real_cost 1 square_cost square square'.
Proof. intros [|a [|b v]] L; try discriminate. split; reflexivity. Qed.
(** One step from 3 to 1 along [-1]. *)
Lemma square_step : cg_step 1 square square' (1 / 100) (1 / 2) [3] [1].
Proof.
  exists [-1], (-6), 2. split; [|left; unfold inner; cbn; lra]. unfold wolfe, along, inner. cbn. repeat split; try lra. f_equal. lra.
Qed.
(** The cubic [z^3 - 3 z], seen from 0 and from -1. *)
Definition cubic_search : Search R :=
  {| ls_x := [0]; ls_z1 := 1; ls_f2 := 0; ls_df2 := [-3]; ls_d2 := -3; ls_f3 := 2; ls_d3 := 0; ls_z3 := -1; ls_limit := -1; ls_calls := [] |}.
Lemma cubic_fits : fits 0 (-3) 0 1 cubic_search.
Proof. unfold fits, cubic, cubic'. cbn. repeat split; lra. Qed.
(** The parabola [(z + 1)^2], seen from 0 and from [-3/2]. *)
Definition parabola_search : Search R :=
  {| ls_x := [0]; ls_z1 := 3 / 2; ls_f2 := 1; ls_df2 := [2]; ls_d2 := 2; ls_f3 := 1 / 4; ls_d3 := -1; ls_z3 := - (3 / 2); ls_limit := -1; ls_calls := [] |}.
(** From [1/2] the first trial point of the square is its minimum. *)
Lemma square_first : 1 / 2 = 1 / (1 + inner 1 (square' [1 / 2]) (square' [1 / 2])) /\
  wolfe 1 square square' (1 / 100) (1 / 2) [1 / 2] (map Ropp (square' [1 / 2])) (inner 1 (square' [1 / 2]) (map Ropp (square' [1 / 2]))) (1 / 2)
    (along [1 / 2] (1 / 2) (map Ropp (square' [1 / 2]))).
Proof. unfold wolfe, along, inner. cbn. repeat split; try lra. Qed.
