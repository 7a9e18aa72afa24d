From Coq Require Import List Arith Reals Lra Lia Bool.
From Verif Require Import Base Num NumX Linalg Spec_Calc Spec_Transforms Spec_Units Proof_MinMax.
Import ListNotations.
Local Open Scope R_scope.

(** Temperatures in Celsius and Fahrenheit. *)
Lemma temperatures : let a := fun _ : nat => 9 / 5 in let b := fun _ : nat => 32 in
  (forall j, 0 < a j) /\ rescaled a b (Mat [[0]; [100]] 1) (Mat [[32]; [212]] 1) /\ in_f64_range (Mat [[0]; [100]] 1) /\
  in_f64_range (Mat [[32]; [212]] 1) /\ (forall j, (j < 1)%nat -> varies (Mat [[0]; [100]] 1) j) /\
  rescaled a b (Mat [[50]] 1) (Mat [[122]] 1).
Proof.
  cbv zeta.
  assert (B : 1000 <= f64_max_R).
  { unfold f64_max_R. rewrite <- mult_IZR. apply IZR_le. vm_compute. discriminate. }
  split; [intros _; lra|]. split; [|split; [|split; [|split]]].
  - unfold rescaled, mwf. cbn [mrows mcols nrows length]. split; [repeat constructor|]. split; [repeat constructor|]. split; [reflexivity|]. split; [reflexivity|].
    intros i j Hi Hj. destruct j; [|lia]. destruct i as [|[|i]]; [| |lia]; cbn; lra.
  - intros i j Hi Hj. cbn in Hi, Hj. destruct j; [|lia]. destruct i as [|[|i]]; [| |lia]; cbn; lra.
  - intros i j Hi Hj. cbn in Hi, Hj. destruct j; [|lia]. destruct i as [|[|i]]; [| |lia]; cbn; lra.
  - intros j Hj. destruct j; [|lia]. exists 0%nat, 1%nat. cbn. repeat split; try lia. lra.
  - unfold rescaled, mwf. cbn [mrows mcols nrows length]. split; [repeat constructor|]. split; [repeat constructor|]. split; [reflexivity|]. split; [reflexivity|].
    intros i j Hi Hj. destruct j; [|lia]. destruct i as [|i]; [|lia]; cbn; lra.
Qed.

Lemma stretched_rows : rows_rescaled (fun i => INR i + 1) (Mat [[3; 4]; [0; 1]] 2) (Mat [[3; 4]; [0; 2]] 2).
Proof.
  split; [reflexivity|]. split; [reflexivity|]. intros i Hi. cbn in Hi.
  destruct i as [|[|i]]; [| |lia]; cbn; repeat f_equal; lra.
Qed.
