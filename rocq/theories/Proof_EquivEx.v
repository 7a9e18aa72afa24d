From Coq Require Import List Arith Lia Bool Reals Lra Permutation.
From Verif Require Import Base BaseLemmas Num NumFn Linalg LinalgR MatR Model_Regression Spec_Regression Proof_Regression Proof_RegressionEx Model_GLM Spec_GLM Spec_Equiv Proof_Equiv.
Import ListNotations.
Local Open Scope R_scope.

(** Three temperatures in Celsius; the same in Fahrenheit; a fourth one to predict. *)
Definition celsius : matrix R := Mat [[2]; [3]; [4]] 1.
Definition fahrenheit : list (R * R) := [(9 / 5, 32)].
Lemma celsius_determined : Forall (determined celsius) [[10]; [3]].
Proof.
  repeat constructor; intros [|a [|b [|c q]]] L H; cbn in L; try lia; pose proof (H [2] (or_introl eq_refl)) as H2; pose proof (H [3] (or_intror (or_introl eq_refl))) as H3;
    unfold affine in *; cbn [length sumR nth] in *; lra.
Qed.
Ltac run := eexists; unfold lr_train, rmat_vec, rassert; cbn; destruct (Req_EM_T _ _) as [E|E]; [exfalso; lra|reflexivity].
Lemma celsius_train y1 y2 y3 : exists m, lr_train cramer2 lr_default celsius [y1; y2; y3] = (m, Ok tt).
Proof. run. Qed.
Lemma fahrenheit_train y1 y2 y3 : exists m, lr_train cramer2 lr_default (map_rows (new_units fahrenheit) 1 celsius) [y1; y2; y3] = (m, Ok tt).
Proof. run. Qed.
Lemma twice_train : exists m, lr_train cramer2 lr_default (Mat (times 2 (mrows celsius)) 1) (times 2 [5; 6; 8]) = (m, Ok tt).
Proof. run. Qed.
Lemma fahrenheit_units : same_affine 1 1 (new_units fahrenheit).
Proof. apply units_affine; [reflexivity|]. repeat constructor. cbn. lra. Qed.
Lemma celsius_wf : mwf celsius. Proof. repeat constructor. Qed.
