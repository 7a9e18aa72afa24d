(** Lemmas for [Props_Succeeds]: principal component analysis. *)
From Coq Require Import List Arith Reals Lra Lia Bool.
From Verif Require Import Base BaseLemmas Num Linalg LinalgR Spec_Calc CalcR MatR Proof_KMeans3 Model_PCA Spec_PCA Proof_PCA Proof_PCA2 Proof_PCAEx Spec_Succeeds2 Proof_Spectral.
Import ListNotations.

Lemma pca_outcomes {F} {N : Num F} svd (self : PCA F) X V : svd_shape svd -> mwf X -> svd (prepared self X) = Some V ->
  (snd (pca_train svd self X) = Ok tt <-> wanted (pca_n self) (mcols X) <= mcols X) /\
  (snd (pca_train svd self X) = Err InvalidData <-> mcols X < wanted (pca_n self) (mcols X)).
Proof.
  intros HS W EV.
  destruct (le_lt_dec (wanted (pca_n self) (mcols X)) (mcols X)) as [L|L].
  - assert (Hn : forall n, pca_n self = Some n -> n <= mcols X) by (intros n E; rewrite E in L; exact L).
    destruct (pca_train_ok svd self X V HS W Hn EV) as (cs & _ & ->). cbn [snd]. split; split; auto; [discriminate|lia].
  - destruct (pca_n self) as [n|] eqn:E; cbn [wanted] in L; [|lia]. rewrite (pca_train_rejects svd self X n E L). cbn [snd wanted]. split; split; auto; [discriminate|lia].
Qed.
Theorem pca_succeeds_any (F : Type) (N : Num F) svd (self : PCA F) X : svd_shape svd -> mwf X -> svd_answers_like svd X ->
  (snd (pca_train svd self X) = Ok tt <-> wanted (pca_n self) (mcols X) <= mcols X) /\
  (snd (pca_train svd self X) = Err InvalidData <-> mcols X < wanted (pca_n self) (mcols X)).
Proof.
  intros HS W HT. destruct (prepared_wf self X W) as (PW & PR & PC). destruct (HT _ PW PR PC) as (V & EV). now apply pca_outcomes with V.
Qed.
Theorem pca_succeeds svd (self : PCA R) X : svd_sound svd -> mwf X -> svd_answers_data svd (pca_center self) X ->
  (snd (pca_train svd self X) = Ok tt <-> wanted (pca_n self) (mcols X) <= mcols X) /\
  (snd (pca_train svd self X) = Err InvalidData <-> mcols X < wanted (pca_n self) (mcols X)).
Proof.
  intros HS W HT. destruct (prepared_wf self X W) as (PW & PR & PC). destruct (HT _ PW PR PC) as (V & EV); [intros; now apply prepared_is|].
  apply pca_outcomes with V; auto. now apply svd_sound_shape.
Qed.

(** Sound decompositions that answer given matrices. *)
Definition mat_dec (A B : matrix R) : {A = B} + {A <> B}.
Proof.
  destruct A as [a c], B as [b d]. destruct (Nat.eq_dec c d) as [->|N]; [|right; congruence]. destruct (list_eq_dec (list_eq_dec Req_EM_T) a b) as [->|N]; [now left|right; congruence].
Defined.
Theorem svd_answers (As : list (matrix R)) : Forall mwf As -> exists svd, svd_sound svd /\ Forall (fun A => exists V, svd A = Some V) As.
Proof.
  induction 1 as [|A As W _ (svd & HS & HA)]; [exists (fun _ => None); split; [discriminate|constructor]|].
  destruct (svd_exists (nrows A) (mcols A) (entry A)) as (V & sg & HV).
  set (M := Mat (map (fun i => map (V i) (seq 0 (Nat.min (nrows A) (mcols A)))) (seq 0 (mcols A))) (Nat.min (nrows A) (mcols A))).
  assert (WM : mwf M) by (apply Forall_forall; intros r Hr; apply in_map_iff in Hr; destruct Hr as (i & <- & _); unfold M; cbn [mcols]; now rewrite map_length, seq_length).
  assert (RM : nrows M = mcols A) by (unfold nrows, M; cbn [mrows]; now rewrite map_length, seq_length).
  assert (EM : forall i j, i < mcols A -> j < Nat.min (nrows A) (mcols A) -> entry M i j = V i j).
  { intros i j Hi Hj. unfold entry, M. cbn [mrows]. now rewrite !nth_map_seq. }
  exists (fun B => if mat_dec B A then Some M else svd B). split.
  - intros B V' WB E. destruct (mat_dec B A) as [->|_]; [|now apply HS]. injection E as <-. split; [exact WM|]. split; [exact RM|]. split; [reflexivity|].
    exists sg. destruct HV as (U & OU & OV & P1 & P2 & P3). exists U. change (mcols M) with (Nat.min (nrows A) (mcols A)). split; [exact OU|]. split; [|split; [exact P1|split; [exact P2|]]].
    + intros a b Ha Hb. rewrite <- OV by auto. apply sumR_ext. intros k Hk. now rewrite !EM.
    + intros i j Hi Hj. rewrite P3 by auto. apply sumR_ext. intros k Hk. now rewrite EM.
  - constructor; [destruct (mat_dec A A); [eauto|contradiction]|]. apply Forall_impl with (2 := HA). intros B (V' & E). destruct (mat_dec B A); eauto.
Qed.

(** A decomposition of the right shape that always answers, and one that answers given data, in the sense of the claims. *)
Definition svd_blank {F} {N : Num F} (A : matrix F) : option (matrix F) :=
  Some (Mat (repeat (repeat nzero (Nat.min (nrows A) (mcols A))) (mcols A)) (Nat.min (nrows A) (mcols A))).
Lemma svd_blank_ok (F : Type) (N : Num F) (X : matrix F) : svd_shape svd_blank /\ svd_answers_like svd_blank X.
Proof.
  split; [|intros A _ _ _; unfold svd_blank; eauto]. intros A V _ [= <-]. split; [|split; [unfold nrows at 1; cbn [mrows]; apply repeat_length|reflexivity]].
  apply Forall_forall. intros r Hr. apply repeat_spec in Hr. subst r. apply repeat_length.
Qed.
Theorem svd_for_data center (X : matrix R) : mwf X -> exists svd, svd_sound svd /\ svd_answers_data svd center X.
Proof.
  intros W. set (self := {| pca_n := None; pca_center := center; pca_n_features := None; pca_centers := None; pca_components := None; pca_inv := false |} : PCA R).
  destruct (prepared_wf self X W) as (PW & PR & PC).
  destruct (svd_answers [prepared self X]) as (svd & HS & HA); [now repeat constructor|]. exists svd. split; [exact HS|].
  intros A WA RA CA EA. replace A with (prepared self X); [now inversion HA|]. symmetry.
  apply matrix_eq; auto; try congruence. intros i j Hi Hj. rewrite prepared_is by (auto; congruence). apply EA; congruence.
Qed.

(** Concrete cases: [svd_ex] answers the centred [X4] and the plain wide [W1]. *)
Lemma svd_ex_X4 : svd_answers_data svd_ex true X4.
Proof.
  intros A WA RA CA EA. exists (Mat [[1%R]] 1). replace A with C4; [exact svd_C4|]. rewrite <- X4_centred. change (centred X4 (col_mean X4)) with (prepared pca_default X4).
  destruct (prepared_wf (pca_default (F := R)) X4 (proj2 (proj2 wf_ex))) as (PW & PR & PC). symmetry.
  apply matrix_eq; auto; try congruence. intros i j Hi Hj. rewrite prepared_is by (try apply wf_ex; congruence). apply EA; congruence.
Qed.
Lemma svd_ex_W1 : svd_answers_data svd_ex false W1.
Proof.
  intros A WA RA CA EA. exists VW1. replace A with W1; [exact svd_W1|]. symmetry.
  apply matrix_eq; auto; try congruence; try apply wf_ex. intros i j Hi Hj. rewrite EA by congruence. unfold prepared_entry, centre_of. ring.
Qed.
Lemma pca_succeeds_ex : (exists m, pca_train svd_ex (pca_new 1 false) W1 = (m, Ok tt)) /\ pca_train svd_ex (pca_new 4 false) W1 = (pca_new 4 false, Err InvalidData).
Proof. split; [|reflexivity]. destruct train_W1_1 as (m & E & _). eauto. Qed.
