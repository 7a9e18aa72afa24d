(** A support vector machine does not exchange its answers with the classes (C190). *)
From Coq Require Import List Arith Lia Bool Reals Lra.
From Verif Require Import Base BaseLemmas Num NumX NumFn NumSign Linalg Model_Regression Model_Kernel Model_SVM Spec_SVM Proof_SVM Proof_SVM2 Proof_SVMEx.
Import ListNotations.
Local Open Scope R_scope.

(** The inner product of the finite parts: the linear kernel, made total. *)
Definition fin_part (x : X) : R := match x with Fin r => r | _ => 0 end.
Fixpoint fin_dot (u v : list X) : R := match u, v with x :: u', y :: v' => fin_part x * fin_part y + fin_dot u' v' | _, _ => 0 end.
Definition klin : Kernel X := fun u v => Ok (Fin (fin_dot u v)).
Lemma klin_finite dim : finite_kernel klin fin_dot dim.
Proof. intros x y _ _. reflexivity. Qed.
Lemma klin_linear a b c d : klin [Fin a; Fin b] [Fin c; Fin d] = k_linear (Fin 0) [Fin a; Fin b] [Fin c; Fin d].
Proof. unfold klin, k_linear, dot, vsum. cbn. do 2 f_equal. ring. Qed.
Definition skew : matrix X := Mat [[Fin 10]; [Fin (-1)]] 1.
Definition query : matrix X := Mat [[Fin (-1)]] 1.
Lemma skew_wf : mwf skew. Proof. repeat constructor. Qed.
Lemma query_wf : mwf query. Proof. repeat constructor. Qed.

Lemma fin_inj (a b : list R) : map Fin a = map Fin b -> a = b.
Proof. revert b. induction a as [|x a IH]; intros [|y b] H; try discriminate; [reflexivity|]. injection H as -> H. f_equal. auto. Qed.
Lemma skew_one y iters (self' : SVM X) : length y = 2%nat -> (0 < iters)%nat -> outcome (svm_train klin (svm_cfg iters) skew (map Fin y)) (Some self') ->
  exists a out, svm_alpha self' = Some (map Fin a) /\ length a = 2%nat /\ Forall (fun v => 0 <= v <= 1) a /\ svm_predict klin self' query = Ok [out] /\
    out = if Rlt_dec (nth 0 a 0 * nth 0 y 0 * -9 + nth 1 a 0 * nth 1 y 0 * 2) 0 then Fin (-1) else Fin 1.
Proof.
  intros L I H.
  destruct (svm_predict_sign klin fin_dot (svm_cfg iters) self' skew y 1 skew_wf (klin_finite _) eq_refl ltac:(lra) L I query H query_wf eq_refl) as (a & out & Ea & La & Ep & Lo & Ho).
  destruct (svm_coefficients klin (fun u v => Fin (fin_dot u v)) (svm_cfg iters) self' skew (map Fin y) skew_wf (klin_finite _) I H) as (b & Eb & Lb & Fb & _).
  assert (a = b) by (apply fin_inj; congruence). subst b. destruct out as [|o [|]]; try discriminate. exists a, o. repeat split; auto.
  specialize (Ho 0%nat ltac:(cbn; lia)). cbn [nth] in Ho. rewrite Ho. unfold expansion. 
  replace (sumR (nrows skew) _) with (nth 0 a 0 * nth 0 y 0 * -9 + nth 1 a 0 * nth 1 y 0 * 2); [reflexivity|].
  cbn [nrows skew mrows length sumR lifted nth query fin_dot fin_part]. unfold lifted. cbn [nth mrows fin_dot fin_part]. ring.
Qed.
Theorem svm_swap_refuted iters (self1 self2 : SVM X) : (0 < iters <= 8)%nat ->
  outcome (svm_train klin (svm_cfg iters) skew (map Fin [1; -1])) (Some self1) ->
  outcome (svm_train klin (svm_cfg iters) skew (map Fin [-1; 1])) (Some self2) ->
  svm_predict klin self1 query = Ok [Fin 1] /\ svm_predict klin self2 query = Ok [Fin 1].
Proof.
  intros [I I8] H1 H2. split.
  - destruct (skew_one [1; -1] _ _ eq_refl I H1) as (a & o & Ea & La & _ & -> & ->). do 2 f_equal.
    assert (B : INR (iters - 1) <= 7). { replace 7 with (INR 7) by (cbn; lra). apply le_INR. lia. }
    assert (Z : forall i, (i < 2)%nat -> nth i a 0 = 0).
    { intros i Hi. destruct (svm_ignored klin fin_dot (svm_cfg iters) self1 skew [1; -1] 1 skew_wf (klin_finite _) eq_refl ltac:(lra) eq_refl I i H1 Hi) as (b & Eb & Z).
      - cbn [svm_optim_iters svm_cfg]. destruct i as [|[|i]]; [| |lia]; cbn [nrows skew mrows length sumR nth]; unfold lifted; cbn [nth mrows skew fin_dot fin_part]; lra.
      - assert (a = b) by (apply fin_inj; congruence). now subst b. }
    rewrite (Z 0%nat), (Z 1%nat) by lia. destruct (Rlt_dec _ 0); [exfalso; cbn [nth] in *; lra|reflexivity].
  - destruct (skew_one [-1; 1] _ _ eq_refl I H2) as (a & o & Ea & La & Fa & -> & ->). do 2 f_equal.
    destruct a as [|a0 [|a1 [|]]]; try discriminate. inversion Fa as [|? ? A0 F1]; subst. inversion F1 as [|? ? A1 _]; subst.
    cbn [nth]. destruct (Rlt_dec _ 0); [exfalso; lra|reflexivity].
Qed.
Lemma skew_runs iters y : length y = 2%nat -> exists self', outcome (svm_train klin (svm_cfg iters) skew y) (Some self').
Proof. intros L. apply (svm_runs klin fin_dot); [exact skew_wf|apply klin_finite|cbn; lia]. Qed.
