(** Concrete cases for the examples of [Props_GPMono]: one and two training rows at right angles. *)
From Coq Require Import List Arith Lia Bool Reals Lra.
From Verif Require Import Base BaseLemmas Num NumFn Linalg LinalgR Spec_Calc MatR Proof_Toolkit Model_Kernel Spec_Kernel Proof_Kernel Model_GP Spec_GP Proof_GP Proof_GPEx.
Import ListNotations.
Local Open Scope R_scope.

(** Exact solvers for one-by-one and for diagonal two-by-two matrices. *)
Definition cholesky2 (A : matrix R) : option (matrix R) :=
  match A with
  | Mat [[a; b]; [c; d]] 2 =>
      if Req_EM_T b 0 then if Req_EM_T c 0 then if Rlt_dec 0 a then if Rlt_dec 0 d then Some (Mat [[sqrt a; 0]; [0; sqrt d]] 2) else None else None else None else None
  | _ => cholesky1 A
  end.
Definition triangular2 (L : matrix R) (v : list R) : res (list R) :=
  match L, v with
  | Mat [[a; b]; [c; d]] 2, [v1; v2] =>
      if Req_EM_T b 0 then if Req_EM_T c 0 then if Req_EM_T a 0 then Panic else if Req_EM_T d 0 then Panic else Ok [v1 / a; v2 / d] else Panic else Panic
  | _, _ => triangular1 L v
  end.
Lemma cons_eq {A} (a b : A) l m : a = b -> l = m -> a :: l = b :: m. Proof. intros -> ->. reflexivity. Qed.
Lemma cholesky2_sound : cholesky_sound cholesky2.
Proof.
  intros A L W Sq H. unfold cholesky2 in H.
  destruct A as [[|[|a [|b [|]]] [|[|c [|d [|]]] [|]]] [|[|[|]]]]; try exact (cholesky1_sound _ _ W Sq H).
  destruct (Req_EM_T b 0) as [->|]; [|discriminate]. destruct (Req_EM_T c 0) as [->|]; [|discriminate]. destruct (Rlt_dec 0 a) as [Pa|]; [|discriminate]. destruct (Rlt_dec 0 d) as [Pd|]; [|discriminate]. injection H as <-.
  repeat split; try reflexivity; [repeat constructor|intros [|[|i]] [|[|j]] Hij Hj; cbn in *; try lia; reflexivity|].
  intros [|v [|u [|]]] Lv; try discriminate. unfold mat_vec, transpose. cbn [mrows map mcols seq col]. cbn [nth]. unfold dot, vsum. cbn.
  pose proof (sqrt_sqrt a ltac:(lra)) as Ea. pose proof (sqrt_sqrt d ltac:(lra)) as Ed.
  apply cons_eq; [|apply cons_eq; [|reflexivity]]; ring_simplify; [replace (sqrt a ^ 2) with a by (rewrite <- Ea at 1; ring)|replace (sqrt d ^ 2) with d by (rewrite <- Ed at 1; ring)]; ring.
Qed.
Lemma triangular2_sound : (forall shape, triangular_sound shape triangular2).
Proof.
  intros shape L b x W Sh H. unfold triangular2 in H.
  destruct L as [[|[|p [|q [|]]] [|[|r [|t [|]]] [|]]] [|[|[|]]]]; try exact (triangular1_sound shape _ _ _ W Sh H).
  destruct b as [|v1 [|v2 [|]]]; try exact (triangular1_sound shape _ _ _ W Sh H).
  destruct (Req_EM_T q 0) as [->|]; [|discriminate]. destruct (Req_EM_T r 0) as [->|]; [|discriminate]. destruct (Req_EM_T p 0) as [|Pa]; [discriminate|]. destruct (Req_EM_T t 0) as [|Pd]; [discriminate|].
  apply Ok_inj in H. subst x. split; [reflexivity|]. split.
  - unfold mat_vec, dot, vsum. cbn. apply cons_eq; [field; auto|]. apply cons_eq; [field; auto|reflexivity].
  - intros [|u1 [|u2 [|]]] Lu E; try discriminate. unfold mat_vec, dot, vsum in E. cbn in E. injection E as E1 E2. apply cons_eq; [|apply cons_eq; [|reflexivity]]; [rewrite <- E1|rewrite <- E2]; field; auto.
Qed.
Definition two1 : matrix R := Mat [[1; 0]] 2.
Definition two2 : matrix R := Mat [[1; 0]; [0; 1]] 2.
Definition two_dot (x y : list R) : R := dot x y.
Definition two_ker : Kernel R := fun x y => Ok (dot x y).
Lemma two_is dim : kernel_is dim two_ker two_dot. Proof. intros x y _ _. reflexivity. Qed.
Lemma sqrt4 : sqrt 4 = 2. Proof. replace 4 with (2 * 2) by lra. apply sqrt_square. lra. Qed.
Ltac go := repeat (match goal with
  | |- context [Req_EM_T ?a ?b] => first [destruct (Req_EM_T a b) as [?Q|?Q]; [exfalso; lra|] | destruct (Req_EM_T a b) as [?Q|?Q]; [|exfalso; lra]]
  | |- context [Rlt_dec ?a ?b] => first [destruct (Rlt_dec a b) as [?Q|?Q]; [|exfalso; lra] | destruct (Rlt_dec a b) as [?Q|?Q]; [exfalso; lra|]]
  end; cbn [unwrap rbind]).
Lemma two_trains y1 y2 : exists s2, gp_train two_ker (const_mean 0) cholesky2 triangular2 triangular2 (gp_new 3) two2 [y1; y2] = (s2, Ok tt) /\
  exists a b, gp_alpha s2 = Some [a; b] /\ gp_train_mat s2 = Some (Mat [[2; 0]; [0; 2]] 2) /\ gp_train_data s2 = Some two2.
Proof.
  unfold gp_train. rewrite (ker_mat_R 2 two_ker two_dot); auto using two_is; try (repeat constructor). cbn [unwrap rbind]. set (A := mzip _ _ _).
    assert (EA : A = Mat [[4; 0]; [0; 4]] 2).
    { unfold A, gram, scaled_identity, mzip, two_dot, dot, vsum. cbn. apply (f_equal2 Mat); [|reflexivity]. apply cons_eq; [|apply cons_eq; [|reflexivity]]; (apply cons_eq; [lra|apply cons_eq; [lra|reflexivity]]). }
    rewrite EA. unfold cholesky2, cholesky1. go. rewrite sqrt4. cbn [const_mean nrows two2 mrows length repeat map]. unfold Model_Optim.rvsub, rassert. cbn [length Nat.eqb rbind]. cbn [vsub map2].
    unfold triangular2 at 1, triangular1. go. unfold transpose. cbn [mcols seq map col mrows nth nrows length]. unfold triangular2, triangular1. go.
    eexists. split; [reflexivity|]. cbn [gp_alpha gp_train_mat gp_train_data]. eexists _, _. split; [reflexivity|]. split; reflexivity.
Qed.
Lemma two_models : exists s1 s2 o1 V1 o2 V2,
  gp_train two_ker (const_mean 0) cholesky2 triangular2 triangular2 (gp_new 3) two1 [4] = (s1, Ok tt) /\
  gp_train two_ker (const_mean 0) cholesky2 triangular2 triangular2 (gp_new 3) two2 [4; 8] = (s2, Ok tt) /\
  gp_get_posterior two_ker (const_mean 0) triangular2 s1 (Mat [[1; 1]] 2) = Ok (o1, V1) /\
  gp_get_posterior two_ker (const_mean 0) triangular2 s2 (Mat [[1; 1]] 2) = Ok (o2, V2).
Proof.
  assert (T1 : exists s1, gp_train two_ker (const_mean 0) cholesky2 triangular2 triangular2 (gp_new 3) two1 [4] = (s1, Ok tt) /\ exists a, gp_alpha s1 = Some [a] /\ gp_train_mat s1 = Some (Mat [[2]] 1) /\ gp_train_data s1 = Some two1).
  { unfold gp_train. rewrite (ker_mat_R 2 two_ker two_dot); auto using two_is; try (repeat constructor). cbn [unwrap rbind]. set (A := mzip _ _ _).
    assert (EA : A = Mat [[4]] 1).
    { unfold A, gram, scaled_identity, mzip, two_dot, dot, vsum. cbn. apply (f_equal2 Mat); [|reflexivity]. apply cons_eq; [|reflexivity]. apply cons_eq; [lra|reflexivity]. }
    rewrite EA. unfold cholesky2, cholesky1. go. rewrite sqrt4. cbn [const_mean nrows two1 mrows length repeat map]. unfold Model_Optim.rvsub, rassert. cbn [length Nat.eqb rbind]. cbn [vsub map2].
    unfold triangular2 at 1, triangular1. go. unfold transpose. cbn [mcols seq map col mrows nth nrows length]. unfold triangular2, triangular1. go.
    eexists. split; [reflexivity|]. cbn [gp_alpha gp_train_mat gp_train_data]. eexists. split; [reflexivity|]. split; reflexivity. }
  destruct (two_trains 4 8) as (s2 & T2 & a2 & b2 & A2 & M2 & D2).
  destruct T1 as (s1 & T1 & a1 & A1 & M1 & D1).
  assert (P1 : exists o V, gp_get_posterior two_ker (const_mean 0) triangular2 s1 (Mat [[1; 1]] 2) = Ok (o, V)).
  { unfold gp_get_posterior. rewrite A1, M1, D1. rewrite (ker_mat_R 2 two_ker two_dot); auto using two_is; try (repeat constructor). cbn [rbind]. unfold gram at 1. cbn [mrows map two1].
    unfold Model_Regression.rmat_vec, rassert. cbn [mcols gram nrows two1 mrows length Nat.eqb rbind]. unfold mat_vec. cbn [mrows map]. cbn [const_mean nrows mrows length repeat map]. unfold Model_Optim.rvadd, rassert. cbn [length Nat.eqb rbind].
    cbn [rmap]. unfold triangular2, triangular1. cbn [gram mrows map two1 rmap]. go. rewrite (ker_mat_R 2 two_ker two_dot); auto using two_is; try (repeat constructor). cbn [rbind]. eexists _, _. reflexivity. }
  assert (P2 : exists o V, gp_get_posterior two_ker (const_mean 0) triangular2 s2 (Mat [[1; 1]] 2) = Ok (o, V)).
  { unfold gp_get_posterior. rewrite A2, M2, D2. rewrite (ker_mat_R 2 two_ker two_dot); auto using two_is; try (repeat constructor). cbn [rbind]. unfold gram at 1. cbn [mrows map two2].
    unfold Model_Regression.rmat_vec, rassert. cbn [mcols gram nrows two2 mrows length Nat.eqb rbind]. unfold mat_vec. cbn [mrows map]. cbn [const_mean nrows mrows length repeat map]. unfold Model_Optim.rvadd, rassert. cbn [length Nat.eqb rbind].
    cbn [rmap]. unfold triangular2, triangular1. cbn [gram mrows map two2 rmap]. go. rewrite (ker_mat_R 2 two_ker two_dot); auto using two_is; try (repeat constructor). cbn [rbind]. eexists _, _. reflexivity. }
  destruct P1 as (o1 & V1 & P1). destruct P2 as (o2 & V2 & P2). exists s1, s2, o1, V1, o2, V2. auto.
Qed.
Lemma two_targets : exists s1 s2 s3,
  gp_train two_ker (const_mean 0) cholesky2 triangular2 triangular2 (gp_new 3) two2 [4; 8] = (s1, Ok tt) /\
  gp_train two_ker (const_mean 0) cholesky2 triangular2 triangular2 (gp_new 3) two2 [1; 0] = (s2, Ok tt) /\
  gp_train two_ker (const_mean 0) cholesky2 triangular2 triangular2 (gp_new 3) two2 [9; 16] = (s3, Ok tt).
Proof. destruct (two_trains 4 8) as (s1 & T1 & _), (two_trains 1 0) as (s2 & T2 & _), (two_trains 9 16) as (s3 & T3 & _). exists s1, s2, s3. auto. Qed.
