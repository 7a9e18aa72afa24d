(** * Concrete cases for the conjugate gradient optimiser *)
From Coq Require Import List Arith Lia Bool Reals Lra.
From Verif Require Import Base BaseLemmas Num NumX Linalg LinalgR Model_Optim Proof_Optim Model_CG Spec_CG Proof_CG Proof_CG2.
Import ListNotations.
Local Open Scope R_scope.

Lemma default_value : @cg_rho X cg_default = Fin (1 / 100) /\ @cg_sig X cg_default = Fin (1 / 2) /\ @cg_int X cg_default = Fin (1 / 10) /\
  @cg_ext X cg_default = Fin 3 /\ @cg_ratio X cg_default = Fin 100.
Proof.
  assert (E : forall k, (0 < k)%nat -> ndiv nonev (nofnat k) = Fin (1 / INR k)).
  { intros k Hk. cbn [ndiv nonev nofnat NumXI xdiv]. destruct (Req_EM_T (INR k) 0) as [Q|_]; [|reflexivity]. apply (lt_0_INR k) in Hk. lra. }
  assert (I100 : INR 100 = 100) by (rewrite INR_IZR_INZ; reflexivity). assert (I10 : INR 10 = 10) by (rewrite INR_IZR_INZ; reflexivity).
  unfold cg_default. cbn [cg_rho cg_sig cg_int cg_ext cg_ratio]. rewrite !E by lia. rewrite I100, I10. split; [reflexivity|]. split; [reflexivity|].
  split; [reflexivity|]. split.
  - cbn [nofnat NumXI]. f_equal. cbn. lra.
  - cbn [nofnat NumXI]. rewrite I100. reflexivity.
Qed.
Lemma default_sane : sane cg_default.
Proof.
  destruct default_value as (E1 & E2 & E3 & E4 & E5).
  split; [exists (1 / 100); split; [exact E1|lra]|]. split; [exists (1 / 2); exact E2|]. split; [exists (1 / 10); split; [exact E3|lra]|].
  split; [exists 3; split; [exact E4|lra]|exists 100; split; [exact E5|lra]].
Qed.
(** The square, whose derivative is [2 x]. *)
Definition square_cost (v : list X) : res (X * list X) := match v with [x] => Ok (nmul x x, [nadd x x]) | _ => Panic end.
Lemma square_good : well_behaved 1 square_cost.
Proof.
  intros x L (u & ->). destruct u as [|a [|]]; try discriminate. exists (Fin (a * a)), [Fin (a + a)]. split; [reflexivity|]. split; [discriminate|].
  split; [reflexivity|]. exists [a + a]. reflexivity.
Qed.
(** A cost that is NaN at one point. *)
Definition nan_cost (v : list X) : res (X * list X) :=
  match v with
  | [Fin x] => if Req_EM_T x 0 then Ok (Fin 1, [Fin (-1)]) else if Req_EM_T x (1 / 2) then Ok (NaN, [Fin (- (1 / 4))]) else Ok (Fin 5, [Fin 0])
  | _ => Panic
  end.
Definition two_rounds : ConjugateGD X :=
  {| cg_rho := cg_rho cg_default; cg_sig := cg_sig cg_default; cg_int := cg_int cg_default; cg_ext := cg_ext cg_default;
     cg_max := cg_max (@cg_default X _); cg_ratio := cg_ratio cg_default; cg_iters := 2 |}.
Lemma search_at_once (self : ConjugateGD X) cost f1 d1 s fuel m st : cg_bad self f1 d1 st = false -> nltb (nmul (cg_sig self) d1) (ls_d2 st) = true ->
  search_loop self cost f1 d1 s (S fuel) m st = Ok (st, true).
Proof.
  intros H1 H2. cbn [search_loop]. assert (E : interp_loop self cost f1 d1 s m st = Ok (st, m)) by (destruct m; [reflexivity|]; cbn [interp_loop]; rewrite H1; reflexivity).
  rewrite E. cbn [rbind]. rewrite H1, H2. reflexivity.
Qed.
Lemma at0 : nan_cost [Fin 0] = Ok (Fin 1, [Fin (-1)]).
Proof. cbn. destruct (Req_EM_T 0 0); [reflexivity|contradiction]. Qed.
Lemma at_half x : x = 1 / 2 -> nan_cost [Fin x] = Ok (NaN, [Fin (- (1 / 4))]).
Proof. intros ->. cbn. destruct (Req_EM_T (1 / 2) 0); [lra|]. destruct (Req_EM_T (1 / 2) (1 / 2)); [reflexivity|contradiction]. Qed.
Lemma at_far x : 1 / 2 < x -> nan_cost [Fin x] = Ok (Fin 5, [Fin 0]).
Proof. intros H. cbn. destruct (Req_EM_T x 0); [lra|]. destruct (Req_EM_T x (1 / 2)); [lra|reflexivity]. Qed.
Lemma round1_start : cg_start nan_cost [Fin 0] = Ok {| rd_x := [Fin 0]; rd_f1 := Fin 1; rd_df1 := [Fin (-1)]; rd_s := [Fin (- -1)]; rd_d1 := Fin (-1);
  rd_z1 := Fin (1 / 2); rd_failed := false; rd_calls := [[Fin 0]] |}.
Proof.
  unfold cg_start. rewrite at0. cbn [rbind map]. unfold dot, vsum. cbn -[xdiv]. f_equal.
  replace (- (0 + - -1 * - -1)) with (-1) by ring. unfold xsub. cbn. destruct (Req_EM_T (1 + - -1) 0); [lra|]. replace (1 / (1 + - -1)) with (1 / 2) by field. reflexivity.
Qed.
Definition st1 : Round X := {| rd_x := [Fin 0]; rd_f1 := Fin 1; rd_df1 := [Fin (-1)]; rd_s := [Fin (- -1)]; rd_d1 := Fin (-1);
  rd_z1 := Fin (1 / 2); rd_failed := false; rd_calls := [[Fin 0]] |}.
Lemma fin_lt a b : a < b -> nltb (Fin a) (Fin b) = true.
Proof. apply xlt_fin. Qed.
Lemma fin_nlt a b : b <= a -> nltb (Fin a) (Fin b) = false.
Proof. apply xlt_fin_false. Qed.
Theorem nan_cost_rises : exists x, cg_optimize two_rounds nan_cost [Fin 0] = Ok x /\ nan_cost x = Ok (Fin 5, [Fin 0]) /\ nan_cost [Fin 0] = Ok (Fin 1, [Fin (-1)]).
Proof.
  destruct default_value as (E1 & E2 & E3 & E4 & E5). destruct min_positive_X as (mp & Emp & Pmp).
  unfold cg_optimize, cg_run. rewrite round1_start. cbn [rbind cg_iters two_rounds]. fold st1.
  (* round 1 *)
  set (ls1 := {| ls_x := [Fin (0 + - -1 * (1 / 2))]; ls_z1 := Fin (1 / 2); ls_f2 := NaN; ls_df2 := [Fin (- (1 / 4))]; ls_d2 := Fin (0 + - (1 / 4) * - -1);
     ls_f3 := Fin 1; ls_d3 := Fin (-1); ls_z3 := Fin (- (1 / 2)); ls_limit := Fin (-1); ls_calls := [[Fin (0 + - -1 * (1 / 2))]; [Fin 0]] |}).
  assert (S1 : search_start nan_cost st1 = Ok ls1).
  { unfold search_start. cbn [rd_x st1 rd_z1 rd_s]. unfold rvadd. cbn [length vscale map Nat.eqb rassert vadd map2 rbind nadd nmul NumXI xmul xadd].
    rewrite at_half by field. reflexivity. }
  cbn [cg_loop]. rewrite S1. cbn [rbind cg_max two_rounds cg_default]. rewrite search_at_once; cycle 1.
  { unfold cg_bad. cbn [ls_f2 ls1 ls_d2 cg_sig two_rounds rd_d1 st1]. rewrite E2. change (nmul (nopp (Fin (1 / 2))) (Fin (-1))) with (Fin (- (1 / 2) * -1)).
    rewrite fin_nlt by lra. rewrite orb_false_r. cbn [nltb NumXI]. destruct (nadd _ _); reflexivity. }
  { cbn [cg_sig two_rounds rd_d1 st1 ls_d2 ls1]. rewrite E2. change (nmul (Fin (1 / 2)) (Fin (-1))) with (Fin (1 / 2 * -1)). apply fin_lt. lra. }
  assert (A1 : exists z, 0 < z /\ accept two_rounds st1 ls1 = Ok {| rd_x := [Fin (1 / 2)]; rd_f1 := NaN; rd_df1 := [Fin (- (1 / 4))]; rd_s := [Fin (1 / 16)]; rd_d1 := Fin (- (1 / 64));
     rd_z1 := Fin z; rd_failed := false; rd_calls := ls_calls ls1 |}).
  { exists (1 / 2 * (-1 / (- (1 / 64) + - mp))). 
    assert (PR : 0 < -1 / (- (1 / 64) + - mp)). { replace (-1 / (- (1 / 64) + - mp)) with (1 / (1 / 64 + mp)) by (field; lra). apply Rdiv_lt_0_compat; lra. }
    assert (PU : -1 / (- (1 / 64) + - mp) < 100). { replace (-1 / (- (1 / 64) + - mp)) with (1 / (1 / 64 + mp)) by (field; lra). apply Rmult_lt_reg_r with (1 / 64 + mp); [lra|]. unfold Rdiv. rewrite Rmult_assoc, Rinv_l by lra. lra. }
    split; [lra|].
    unfold accept. cbn [ls_df2 ls1 rd_df1 st1 rd_s rvsub length Nat.eqb rassert rbind vsub map2 nsub NumXI xsub xadd xopp]. unfold rvsub.
    cbn [map length vscale vsub map2 Nat.eqb rassert rbind].
    assert (D1 : dot [Fin (-1)] [Fin (-1)] = Fin 1). { unfold dot, vsum. cbn. f_equal. ring. }
    rewrite D1. assert (D2 : dot [Fin (- (1 / 4) + - -1)] [Fin (- (1 / 4))] = Fin (- (3 / 16))). { unfold dot, vsum. cbn. f_equal. field. }
    rewrite D2. assert (D3 : nsub (ndiv (nmul (Fin (- -1)) (Fin (- (3 / 16)))) (Fin 1)) (Fin (- (1 / 4))) = Fin (1 / 16)).
    { cbn. destruct (Req_EM_T 1 0); [lra|]. cbn. f_equal. field. }
    rewrite D3. assert (D4 : dot [Fin (- (1 / 4))] [Fin (1 / 16)] = Fin (- (1 / 64))). { unfold dot, vsum. cbn. f_equal. field. }
    rewrite D4. change (@nzero X NumXI) with (Fin 0). rewrite fin_nlt by lra. rewrite Emp. cbn [rd_d1 st1]. change (xsub (Fin (- (1 / 64))) (Fin mp)) with (Fin (- (1 / 64) + - mp)).
    assert (D5 : ndiv (Fin (-1)) (Fin (- (1 / 64) + - mp)) = Fin (-1 / (- (1 / 64) + - mp))). { cbn. destruct (Req_EM_T _ 0); [lra|reflexivity]. }
    rewrite D5. cbn [cg_ratio two_rounds]. rewrite E5. rewrite fin_nlt by lra. cbn [ls_x ls_f2 ls_z1 ls_calls ls1 nmul NumXI xmul].
    replace (0 + - -1 * (1 / 2)) with (1 / 2) by field. reflexivity. }
  destruct A1 as (z & Pz & A1). cbn [rbind]. rewrite A1. cbn [rbind].
  (* round 2 *)
  match goal with |- context [search_start nan_cost ?s] => set (st2 := s) end.
  set (x2 := 1 / 2 + 1 / 16 * z).
  set (ls2 := {| ls_x := [Fin x2]; ls_z1 := Fin z; ls_f2 := Fin 5; ls_df2 := [Fin 0]; ls_d2 := Fin (0 + 0 * (1 / 16));
     ls_f3 := NaN; ls_d3 := Fin (- (1 / 64)); ls_z3 := Fin (- z); ls_limit := Fin (-1); ls_calls := [Fin x2] :: ls_calls ls1 |}).
  assert (S2 : search_start nan_cost st2 = Ok ls2).
  { unfold search_start. cbn [rd_x st2 rd_z1 rd_s]. unfold rvadd. cbn [length vscale map Nat.eqb rassert vadd map2 rbind nadd nmul NumXI xmul xadd].
    rewrite at_far by lra. reflexivity. }
  rewrite S2. cbn [rbind]. rewrite search_at_once; cycle 1.
  { unfold cg_bad. cbn [ls_f2 ls2 ls_d2 cg_sig two_rounds rd_d1 st2 rd_f1]. rewrite E2. change (nmul (nopp (Fin (1 / 2))) (Fin (- (1 / 64)))) with (Fin (- (1 / 2) * - (1 / 64))).
    rewrite fin_nlt by lra. rewrite orb_false_r. reflexivity. }
  { cbn [cg_sig two_rounds rd_d1 st2 ls_d2 ls2]. rewrite E2. change (nmul (Fin (1 / 2)) (Fin (- (1 / 64)))) with (Fin (1 / 2 * - (1 / 64))). apply fin_lt. lra. }
  cbn [rbind]. assert (A2 : exists st', accept two_rounds st2 ls2 = Ok st' /\ rd_x st' = [Fin x2]).
  { unfold accept. cbn [ls_df2 ls2 rd_df1 st2 rd_s]. unfold rvsub. cbn [length Nat.eqb rassert rbind vsub map2 map vscale]. eexists. split; reflexivity. }
  destruct A2 as (st' & A2 & Ex). rewrite A2. cbn [rbind]. exists (rd_x st'). split; [reflexivity|]. rewrite Ex. split; [apply at_far; unfold x2; lra|exact at0].
Qed.
