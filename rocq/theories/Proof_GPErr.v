(** * How training a Gaussian process can fail ([src/learning/gp.rs] lines 158-176) *)
From Coq Require Import List Arith Lia Reals Lra.
Import ListNotations.
From Verif Require Import Base Num NumFn Linalg Model_Kernel Model_Optim Model_Regression Model_GP Spec_GP Proof_GP Proof_GPEx.
Local Open Scope nat_scope.

Theorem gp_train_err {F} {N : Num F} ker mean ch sl su (self : GaussianProcess F) X y k :
  snd (gp_train ker mean ch sl su self X y) = Err k <->
  k = InvalidState /\ exists km, ker_mat ker X X = Ok km /\ ch (mzip nadd km (scaled_identity (nrows X) (gp_noise self))) = None.
Proof.
  unfold gp_train. destruct (ker_mat ker X X) as [km|e|]; cbn [unwrap rbind].
  - destruct (ch _) as [L|] eqn:EC.
    + split; [|intros (_ & km' & [= <-] & H); congruence].
      unfold rvsub, rassert. destruct (_ =? _); cbn [rbind snd]; [|discriminate].
      destruct (sl _ _); cbn [unwrap rbind snd]; try discriminate. destruct (su _ _); cbn [unwrap rbind snd]; discriminate.
    + cbn [snd]. split; [intros [= <-]; eauto|]. intros (-> & _). reflexivity.
  - cbn [snd]. split; [discriminate|]. intros (_ & km & H & _). discriminate.
  - cbn [snd]. split; [discriminate|]. intros (_ & km & H & _). discriminate.
Qed.
Theorem gp_train_target_count {F} {N : Num F} ker mean ch sl su (self : GaussianProcess F) X y km L :
  ker_mat ker X X = Ok km -> ch (mzip nadd km (scaled_identity (nrows X) (gp_noise self))) = Some L ->
  length y <> length (mean X) -> snd (gp_train ker mean ch sl su self X y) = Panic.
Proof.
  intros E1 E2 H. unfold gp_train. rewrite E1. cbn [unwrap rbind]. rewrite E2. unfold rvsub, rassert.
  apply Nat.eqb_neq in H. rewrite H. reflexivity.
Qed.
Example gp_train_err_ex : snd (gp_train (k_squared_exp 1%R 1%R) (const_mean 1%R) (fun _ => None) triangular1 triangular1 (gp_new 3%R) GX [9%R]) = Err InvalidState /\
  snd (gp_train (k_squared_exp 1%R 1%R) (const_mean 1%R) (fun M => Some M) (fun _ _ => Err InvalidData) triangular1 (gp_new 3%R) GX [9%R]) = Panic /\
  snd (gp_train (k_squared_exp 1%R 1%R) (const_mean 1%R) (fun M => Some M) triangular1 triangular1 (gp_new 3%R) GX [9%R; 8%R]) = Panic.
Proof. repeat split. Qed.
