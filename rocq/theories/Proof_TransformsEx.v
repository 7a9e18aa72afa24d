From Coq Require Import List Arith Reals Lra Lia Bool ZArith.
From Verif Require Import Base Num NumX NumF Linalg Spec_Calc CalcR Model_Transforms Spec_Transforms Proof_MinMax Proof_Standardize.
Import ListNotations.
Local Open Scope R_scope.

Definition exm : matrix R := Mat [[1; 10]; [3; 5]; [2; 7]] 2.

Lemma f64_max_big : 1000000 <= f64_max_R.
Proof. unfold f64_max_R. rewrite <- mult_IZR. apply IZR_le. vm_compute. discriminate. Qed.

Lemma exm_varies : forall j, (j < mcols exm)%nat -> varies exm j.
Proof.
  intros [|[|j]] H; simpl in H; try lia; exists 0%nat, 1%nat; unfold nrows, entry; simpl; repeat split; try lia; lra.
Qed.
Lemma exm_ok : mwf exm /\ in_f64_range exm /\ (0 < nrows exm)%nat /\
  (forall j, (j < mcols exm)%nat -> varies exm j) /\ is_col_min exm 0 1 /\ is_col_max exm 0 3.
Proof.
  split; [repeat constructor|]. split.
  { pose proof f64_max_big. intros [|[|[|i]]] [|[|j]] Hi Hj; unfold nrows in Hi; simpl in Hi, Hj; try lia;
      unfold entry; simpl; lra. }
  split; [unfold nrows; simpl; lia|]. split; [apply exm_varies|].
  split; (split; [|intros [|[|[|i]]] Hi; unfold nrows in Hi; simpl in Hi; try lia; unfold entry; simpl; lra]).
  - exists 0%nat. unfold nrows, entry; simpl; auto with arith.
  - exists 1%nat. unfold nrows, entry; simpl; auto with arith.
Qed.
Lemma exm_ok2 : mwf exm /\ (2 <= nrows exm)%nat /\ (forall j, (j < mcols exm)%nat -> varies exm j).
Proof. split; [repeat constructor|]. split; [unfold nrows; simpl; lia|apply exm_varies]. Qed.

(** First entry of a row of the result of fitting and transforming the same matrix. *)
Definition b64_fit_transform (m : matrix B64) (P : list (list B64) -> bool) : bool :=
  match minmax_fit nzero nonev m with
  | Ok sc => match minmax_transform sc m with Ok out => P (mrows out) | _ => false end
  | _ => false
  end.
Lemma b64_fit_transform_true m P : b64_fit_transform m P = true ->
  exists sc out, minmax_fit nzero nonev m = Ok sc /\ minmax_transform sc m = Ok out /\ P (mrows out) = true.
Proof.
  unfold b64_fit_transform. destruct (minmax_fit nzero nonev m) as [sc| |]; try discriminate.
  destruct (minmax_transform sc m) as [out| |] eqn:E; try discriminate. intros H. exists sc, out. auto.
Qed.

Lemma b64_rounding :
  exists sc out, minmax_fit (F := B64) nzero nonev (Mat [[b64_of_Z (-4)]; [b64_dec (-1) 1]] 1) = Ok sc /\
    minmax_transform sc (Mat [[b64_of_Z (-4)]; [b64_dec (-1) 1]] 1) = Ok out /\
    nltb (nth 0 (nth 0 (mrows out) []) nzero) nzero = true.
Proof. apply (b64_fit_transform_true _ (fun rows => nltb (nth 0 (nth 0 rows []) nzero) nzero)). vm_compute. reflexivity. Qed.
Lemma b64_overflow :
  exists sc out, minmax_fit (F := B64) nzero nonev (Mat [[nopp nmaxv]; [nmaxv]] 1) = Ok sc /\
    minmax_transform sc (Mat [[nopp nmaxv]; [nmaxv]] 1) = Ok out /\
    (neqb (nth 0 (nth 0 (mrows out) []) nzero) nonev && neqb (nth 0 (nth 1 (mrows out) []) nzero) nonev)%bool = true.
Proof.
  apply (b64_fit_transform_true _ (fun rows => neqb (nth 0 (nth 0 rows []) nzero) nonev && neqb (nth 0 (nth 1 rows []) nzero) nonev)%bool).
  vm_compute. reflexivity.
Qed.

Lemma ex_nan : minmax_fit (F := X) (Fin 0) (Fin 1) (Mat [[Fin 1]; [Fin 2]; [NaN]] 1) = Err InvalidData
  /\ some_nonfinite (Mat [[Fin 1]; [Fin 2]; [NaN]] 1).
Proof.
  assert (B : some_nonfinite (Mat [[Fin 1]; [Fin 2]; [NaN]] 1)).
  { unfold some_nonfinite; simpl. do 2 apply Exists_cons_tl. constructor. constructor. reflexivity. }
  split; auto.
Qed.
Lemma ex_constant : let m := Mat [[1; 5]; [2; 5]] 2 in
  mwf m /\ (2 <= nrows m)%nat /\ (1 < mcols m)%nat /\ ~ varies m 1.
Proof.
  split; [repeat constructor|]. split; [unfold nrows; simpl; lia|]. split; [simpl; lia|].
  intros (i & i' & Hi & Hi' & H). apply H. unfold nrows in *; simpl in *.
  destruct i as [|[|i]], i' as [|[|i']]; try lia; reflexivity.
Qed.

(** The scaler and the standardizer fitted to [exm], and a data set with an infinite entry to feed them. *)
Lemma exm_scaler : exists sc, minmax_fit (Fin 0) (Fin 1) (inj exm) = Ok sc /\ usable sc /\ length (scale_factors sc) = 2%nat.
Proof.
  destruct exm_ok as (W & R & N & V & _). destruct (minmax_range 0 1 exm ltac:(lra) W R N V) as (sc & m' & E & _).
  exists sc. split; [exact E|]. destruct (minmax_fit_usable 0 1 exm sc ltac:(lra) W R N E). now split.
Qed.
Lemma exm_standardizer : exists st, standardizer_fit (Fin 3) (Fin 2) (inj exm) = Ok st /\ std_usable st /\ length (std_means st) = 2%nat.
Proof.
  destruct exm_ok2 as (W & N & V). destruct (standardize_spec 3 2 exm W N V) as (st & m' & E & _).
  exists st. split; [exact E|]. destruct (std_fit_usable 3 2 exm st ltac:(lra) N V E). now split.
Qed.
Lemma usable_by_hand : usable {| scale_factors := [Fin 2; Fin (-3)]; const_factors := [Fin 0; Fin 7] |}.
Proof. split; [reflexivity|]. split; repeat constructor; eexists; try split; try reflexivity; lra. Qed.
