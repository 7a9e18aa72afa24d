(** * Concrete cases for principal component analysis *)
From Coq Require Import List Arith Lia Bool Reals Lra.
From Verif Require Import Base BaseLemmas Num Linalg LinalgR Spec_Calc CalcR Proof_KMeans MatR Model_NNet Model_PCA Spec_PCA Proof_PCA Proof_PCA2.
Import ListNotations.
Local Open Scope R_scope.

Definition A3 : matrix R := Mat [[0; 3; 0]; [0; 0; 2]; [1; 0; 0]] 3.
Definition V3 : matrix R := Mat [[0; 0; 1]; [1; 0; 0]; [0; 1; 0]] 3.
Definition W1 : matrix R := Mat [[3; 0; 4]] 3.
Definition VW1 : matrix R := Mat [[3 / 5]; [0]; [4 / 5]] 1.
Definition X4 : matrix R := Mat [[0]; [0]; [2]; [2]] 1.
Definition C4 : matrix R := Mat [[-1]; [-1]; [1]; [1]] 1.

Definition mat_eq_dec (A B : matrix R) : {A = B} + {A <> B}.
Proof. destruct A as [a m], B as [b n]. decide equality; [apply Nat.eq_dec|]. apply list_eq_dec, list_eq_dec, Req_EM_T. Defined.
(** An oracle that knows three matrices. *)
Definition svd_ex (A : matrix R) : option (matrix R) :=
  if mat_eq_dec A A3 then Some V3 else if mat_eq_dec A W1 then Some VW1 else if mat_eq_dec A C4 then Some (Mat [[1]] 1) else None.

Ltac small i := destruct i as [|[|[|[|i]]]]; cbn in *; try lia.
Lemma svd_ex_sound : svd_sound svd_ex.
Proof.
  intros A V W. unfold svd_ex.
  destruct (mat_eq_dec A A3) as [->|]; [|destruct (mat_eq_dec A W1) as [->|]; [|destruct (mat_eq_dec A C4) as [->|]; [|discriminate]]]; intros [= <-].
  - split; [repeat constructor|]. split; [reflexivity|]. split; [reflexivity|]. exists (fun k => nth k [3; 2; 1] 0), (fun i j => if (i =? j)%nat then 1 else 0).
    split; [|split; [|split; [|split]]].
    + intros a b Ha Hb. small a; small b; ring.
    + intros a b Ha Hb. unfold entry. small a; small b; ring.
    + intros j Hj. small j; lra.
    + intros i j Hij. small i; small j; lra.
    + intros i j Hi Hj. unfold entry. small i; small j; ring.
  - split; [repeat constructor|]. split; [reflexivity|]. split; [reflexivity|]. exists (fun k => 5), (fun i j => 1).
    split; [|split; [|split; [|split]]].
    + intros a b Ha Hb. small a; small b; ring.
    + intros a b Ha Hb. unfold entry. small a; small b; field.
    + intros j Hj. lra.
    + intros i j Hij. lra.
    + intros i j Hi Hj. unfold entry. small i; small j; field.
  - split; [repeat constructor|]. split; [reflexivity|]. split; [reflexivity|]. exists (fun k => 2), (fun i j => nth i [-1/2; -1/2; 1/2; 1/2] 0).
    split; [|split; [|split; [|split]]].
    + intros a b Ha Hb. small a; small b; field.
    + intros a b Ha Hb. unfold entry. small a; small b; field.
    + intros j Hj. lra.
    + intros i j Hij. lra.
    + intros i j Hi Hj. unfold entry. small i; small j; field.
Qed.
Lemma svd_A3 : svd_ex A3 = Some V3.
Proof. unfold svd_ex. destruct (mat_eq_dec A3 A3); [reflexivity|contradiction]. Qed.
Lemma svd_W1 : svd_ex W1 = Some VW1.
Proof.
  unfold svd_ex. destruct (mat_eq_dec W1 A3) as [E|]; [discriminate E|]. destruct (mat_eq_dec W1 W1); [reflexivity|contradiction].
Qed.
Lemma svd_C4 : svd_ex C4 = Some (Mat [[1]] 1).
Proof.
  unfold svd_ex. destruct (mat_eq_dec C4 A3) as [E|]; [discriminate E|]. destruct (mat_eq_dec C4 W1) as [E|]; [discriminate E|].
  destruct (mat_eq_dec C4 C4); [reflexivity|contradiction].
Qed.
Lemma X4_centred : centred X4 (col_mean X4) = C4.
Proof. unfold centred, col_mean, vsum. cbn. unfold C4. repeat f_equal; field. Qed.

Lemma wf_ex : mwf A3 /\ mwf W1 /\ mwf X4.
Proof. repeat split; repeat constructor. Qed.
(** Tall data, centred. *)
Lemma train_X4 : exists self, pca_train svd_ex pca_default X4 = (self, Ok tt) /\ usable pca_default X4 /\
  pca_predict self (Mat [[5]] 1) = Ok (Mat [[4]] 1).
Proof.
  destruct (pca_train_ok svd_ex pca_default X4 (Mat [[1]] 1)) as (cs & Hcs & E).
  - apply svd_sound_shape, svd_ex_sound.
  - apply wf_ex.
  - discriminate.
  - cbn [prepared pca_default pca_center]. rewrite X4_centred. apply svd_C4.
  - eexists. split; [exact E|]. split; [left; split; [unfold wide; cbn; lia|reflexivity]|].
    rewrite Hcs by reflexivity. unfold pca_predict, col_mean, vsum, rmat_mul, mat_mul, dot, vsum, firstcols, wideb. cbn.
    do 4 f_equal. field.
Qed.
(** Wide data, all components asked for. *)
Definition after_W1 : PCA R :=
  {| pca_n := Some 3%nat; pca_center := false; pca_n_features := Some 3%nat; pca_centers := None;
     pca_components := Some (Mat [[3 / 5; 0; 4 / 5]] 3); pca_inv := true |}.
Lemma train_W1 : pca_train svd_ex (pca_new 3 false) W1 = (after_W1, Ok tt) /\ usable (pca_new 3 false) W1.
Proof.
  split; [|right; split; [unfold wide; cbn; lia|reflexivity]]. unfold pca_train. cbn [pca_n pca_new pca_center rbind]. rewrite svd_W1. reflexivity.
Qed.
(** Wide data first, then tall data: the second component is returned in place of the first... *)
Definition after_W1_A3 : PCA R :=
  {| pca_n := Some 3%nat; pca_center := false; pca_n_features := Some 3%nat; pca_centers := None;
     pca_components := Some V3; pca_inv := true |}.
Definition after_A3 : PCA R :=
  {| pca_n := Some 3%nat; pca_center := false; pca_n_features := Some 3%nat; pca_centers := None;
     pca_components := Some V3; pca_inv := false |}.
Lemma train_W1_A3 : pca_train svd_ex after_W1 A3 = (after_W1_A3, Ok tt).
Proof. unfold pca_train. cbn [pca_n after_W1 pca_center rbind]. rewrite svd_A3. reflexivity. Qed.
Lemma train_A3 : pca_train svd_ex (pca_new 3 false) A3 = (after_A3, Ok tt).
Proof. unfold pca_train. cbn [pca_n pca_new pca_center rbind]. rewrite svd_A3. reflexivity. Qed.
Lemma predict_A3 a b c : pca_predict after_A3 (Mat [[a; b; c]] 3) = Ok (Mat [[b; c; a]] 3).
Proof. unfold pca_predict, rmat_mul, mat_mul, dot, vsum. cbn. repeat f_equal; ring. Qed.
Lemma predict_W1_A3 a b c : pca_predict after_W1_A3 (Mat [[a; b; c]] 3) = Ok (Mat [[c; a; b]] 3).
Proof. unfold pca_predict, rmat_mul, mat_mul, dot, vsum. cbn. repeat f_equal; ring. Qed.
(** ... and with fewer components than columns, wide data alone leaves a model that panics. *)
Lemma train_W1_1 : exists self, pca_train svd_ex (pca_new 1 false) W1 = (self, Ok tt) /\ pca_predict self W1 = Panic /\
  pca_get_components self = Ok (Mat [[3 / 5]] 1).
Proof. eexists. split; [unfold pca_train; cbn [pca_n pca_new pca_center rbind]; rewrite svd_W1; reflexivity|]. split; reflexivity. Qed.
