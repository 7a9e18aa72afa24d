(** Concrete cases for the examples of [Props_Regression]. *)
From Coq Require Import List Arith Lia Bool Reals Lra.
From Verif Require Import Base BaseLemmas Num NumFn Linalg LinalgR Spec_Calc MatR Model_Toolkit Model_Optim Model_Regression Spec_Regression Proof_Regression.
Import ListNotations.
Local Open Scope R_scope.

(** Cramer's rule for two unknowns, an instance of a sound solver. *)
Definition cramer2 (A : matrix R) (b : list R) : res (list R) :=
  match A, b with
  | Mat [[p; q]; [r; s]] 2, [u; v] =>
      let d := p * s - q * r in
      if Req_EM_T d 0 then Err LinearAlgebra else Ok [(u * s - q * v) / d; (p * v - u * r) / d]
  | _, _ => Panic
  end.
Lemma cramer2_sound : solver_sound cramer2.
Proof.
  intros A b x H. unfold cramer2 in H.
  destruct A as [[|[|p [|q [|]]] [|[|r [|s [|]]] [|]]] [|[|[|]]]]; try discriminate.
  destruct b as [|u [|v [|]]]; try discriminate.
  destruct (Req_EM_T _ _); [discriminate|]. apply Proof_Toolkit.Ok_inj in H. subst x. split; [reflexivity|].
  unfold mat_vec. cbn [map mrows]. rewrite !dot_cons, !dot_nil_l.
  apply (f_equal2 (@cons R)); [field; auto|]. apply (f_equal2 (@cons R)); [field; auto|reflexivity].
Qed.
(** Points (2,5) (3,6) (4,7) of the documentation: intercept 3, slope 1. *)
Lemma lr_train_ex : exists self', lr_train cramer2 lr_default (Mat [[2]; [3]; [4]] 1) [5; 6; 7] = (self', Ok tt) /\ lr_parameters self' = Some [3; 1].
Proof.
  eexists. split.
  - unfold lr_train, rmat_vec, rassert. cbn. destruct (Req_EM_T _ _) as [E|E]; [exfalso; lra|]. reflexivity.
  - cbn. apply (f_equal Some). apply (f_equal2 (@cons R)); [field|]. apply (f_equal2 (@cons R)); [field|reflexivity].
Qed.
Lemma scaled_ex : forall v, length v = 2%nat -> dot (mat_vec (with_ones (Mat [[1]] 1)) v) (mat_vec (with_ones (Mat [[1]] 1)) v) <= 2 * INR 1 * dot v v.
Proof.
  intros [|a [|b [|]]] H; try discriminate. unfold mat_vec. cbn [with_ones mrows map].
  rewrite !dot_cons, !dot_nil_l. cbn [nonev NumR INR]. pose proof (Rle_0_sqr (a - b)) as Q. unfold Rsqr in Q. nra.
Qed.
