(** Matrices over the reals as sums of entries. *)
From Coq Require Import List Arith Lia Bool Reals Lra.
From Verif Require Import Base BaseLemmas Num Linalg LinalgR Spec_Calc CalcR Proof_KMeans.
Import ListNotations.
Local Open Scope R_scope.

Lemma vec_ext (u v : list R) : length u = length v -> (forall i, (i < length u)%nat -> nth i u 0 = nth i v 0) -> u = v.
Proof. apply nth_ext. Qed.

Lemma dot_sumR n (u v : list R) : length u = n -> length v = n -> dot u v = sumR n (fun i => nth i u 0 * nth i v 0).
Proof. intros Hu Hv. rewrite dot_rsum. apply (rsum_map2_nth Rmult u v n Hu Hv). Qed.

Lemma col_length {F} {N : Num F} (m : matrix F) j : length (col m j) = nrows m.
Proof. apply map_length. Qed.
Lemma col_nth (m : matrix R) i j : (i < nrows m)%nat -> nth i (col m j) 0 = entry m i j.
Proof. intros H. unfold col. rewrite (nth_map (fun r => nth j r nzero) _ _ _ []) by exact H. reflexivity. Qed.

Lemma mat_vec_length' {F} {N : Num F} (A : matrix F) x : length (mat_vec A x) = nrows A.
Proof. apply map_length. Qed.
Lemma mat_vec_nth (A : matrix R) v i : mwf A -> length v = mcols A -> (i < nrows A)%nat ->
  nth i (mat_vec A v) 0 = sumR (mcols A) (fun k => entry A i k * nth k v 0).
Proof.
  intros W L H. unfold mat_vec. rewrite (nth_map (fun r => dot r v) _ _ _ []) by exact H.
  rewrite (dot_sumR (mcols A)); auto. apply mwf_row; auto.
Qed.

Lemma transpose_nrows {F} {N : Num F} (A : matrix F) : nrows (transpose A) = mcols A.
Proof. unfold transpose, nrows. cbn. rewrite map_length, seq_length. reflexivity. Qed.
Lemma transpose_mcols {F} {N : Num F} (A : matrix F) : mcols (transpose A) = nrows A.
Proof. reflexivity. Qed.
Lemma transpose_wf {F} {N : Num F} (A : matrix F) : mwf (transpose A).
Proof. apply Forall_forall. intros r Hr. cbn in Hr. apply in_map_iff in Hr. destruct Hr as (j & <- & _). apply map_length. Qed.
Lemma transpose_entry (A : matrix R) i j : (i < mcols A)%nat -> (j < nrows A)%nat -> entry (transpose A) i j = entry A j i.
Proof.
  intros Hi Hj. unfold entry at 1, transpose. cbn [mrows]. rewrite nth_map_seq by exact Hi. apply col_nth; auto.
Qed.

Lemma mat_mul_nrows {F} {N : Num F} (A B : matrix F) : nrows (mat_mul A B) = nrows A.
Proof. apply map_length. Qed.
Lemma mat_mul_wf {F} {N : Num F} (A B : matrix F) : mwf (mat_mul A B).
Proof.
  apply Forall_forall. intros r Hr. cbn in Hr. apply in_map_iff in Hr. destruct Hr as (x & <- & _).
  rewrite map_length, seq_length. reflexivity.
Qed.
Lemma mat_mul_entry (A B : matrix R) i j : mwf A -> nrows B = mcols A -> (i < nrows A)%nat -> (j < mcols B)%nat ->
  entry (mat_mul A B) i j = sumR (mcols A) (fun k => entry A i k * entry B k j).
Proof.
  intros WA E Hi Hj. unfold entry at 1, mat_mul. cbn [mrows].
  rewrite (nth_map _ _ _ _ []) by exact Hi. rewrite nth_map_seq by exact Hj.
  rewrite (dot_sumR (mcols A)); [|apply mwf_row; auto|rewrite col_length; auto].
  apply sumR_ext. intros k Hk. rewrite col_nth by lia. reflexivity.
Qed.

Lemma sumR_scal_r n c f : sumR n (fun i => f i * c) = sumR n f * c.
Proof. rewrite (sumR_ext n _ (fun i => c * f i)) by (intros; ring). rewrite sumR_scal. ring. Qed.

Lemma dot_transpose (X : matrix R) r d : mwf X -> length r = nrows X -> length d = mcols X ->
  dot r (mat_vec X d) = dot (mat_vec (transpose X) r) d.
Proof.
  intros W Lr Ld.
  rewrite (dot_sumR (nrows X)) by (rewrite ?mat_vec_length'; auto).
  rewrite (dot_sumR (mcols X)) by (rewrite ?mat_vec_length', ?transpose_nrows; auto).
  rewrite (sumR_ext (nrows X) _ (fun i => sumR (mcols X) (fun k => nth i r 0 * (entry X i k * nth k d 0)))).
  2:{ intros i Hi. rewrite mat_vec_nth by auto. rewrite sumR_scal. reflexivity. }
  rewrite sumR_exch. apply sumR_ext. intros k Hk.
  rewrite mat_vec_nth. 2:{ apply transpose_wf. } 2:{ exact Lr. } 2:{ rewrite transpose_nrows. exact Hk. }
  rewrite transpose_mcols.
  rewrite <- sumR_scal_r. apply sumR_ext. intros i Hi. rewrite transpose_entry by auto. ring.
Qed.

Lemma mat_vec_mul (A B : matrix R) v : mwf A -> mwf B -> nrows B = mcols A -> length v = mcols B ->
  mat_vec (mat_mul A B) v = mat_vec A (mat_vec B v).
Proof.
  intros WA WB E L. apply vec_ext; [rewrite !mat_vec_length'; apply mat_mul_nrows|].
  intros i Hi. rewrite mat_vec_length', mat_mul_nrows in Hi.
  rewrite (mat_vec_nth (mat_mul A B)) by (first [apply mat_mul_wf | rewrite mat_mul_nrows; exact Hi | exact L]).
  rewrite mat_vec_nth by (rewrite ?mat_vec_length'; auto). change (mcols (mat_mul A B)) with (mcols B).
  rewrite (sumR_ext (mcols B) _ (fun j => sumR (mcols A) (fun k => entry A i k * entry B k j * nth j v 0))).
  2:{ intros j Hj. rewrite mat_mul_entry by auto. symmetry. apply sumR_scal_r. }
  rewrite sumR_exch. apply sumR_ext. intros k Hk. rewrite mat_vec_nth by (auto; lia).
  rewrite <- sumR_scal. apply sumR_ext. intros j Hj. ring.
Qed.

Lemma mat_vec_vadd (A : matrix R) x y : length x = length y -> mat_vec A (vadd x y) = vadd (mat_vec A x) (mat_vec A y).
Proof.
  intros H. unfold mat_vec, vadd at 2. induction (mrows A) as [|r rs IH]; [reflexivity|].
  cbn [map map2]. rewrite (dot_comm r), dot_vadd_l, (dot_comm x), (dot_comm y) by auto. f_equal. exact IH.
Qed.
Lemma vsub_vsub_vadd (a b c : list R) : length a = length b -> length b = length c -> vadd (vsub a b) (vsub b c) = vsub a c.
Proof.
  revert b c. induction a as [|x a IH]; intros [|y b] [|z c] H1 H2; try discriminate; [reflexivity|].
  cbn [vadd vsub map2]. cbn [nadd nsub NumR]. f_equal; [lra|]. apply IH; cbn in *; lia.
Qed.
Lemma vadd_len' (a b : list R) : length a = length b -> length (vadd a b) = length a.
Proof. intros E. unfold vadd. rewrite map2_length. lia. Qed.
Lemma vsub_len' (a b : list R) : length a = length b -> length (vsub a b) = length a.
Proof. intros E. unfold vsub. rewrite map2_length. lia. Qed.

(** Derivatives of finite sums. *)
Lemma deriv_sumR n (f : nat -> R -> R) (f' : nat -> R) x : (forall i, (i < n)%nat -> derivable_pt_lim (f i) x (f' i)) ->
  derivable_pt_lim (fun y => sumR n (fun i => f i y)) x (sumR n f').
Proof.
  induction n as [|n IH]; intros H.
  - cbn. apply (derivable_pt_lim_const 0).
  - cbn [sumR]. apply (derivable_pt_lim_plus (fun y => sumR n (fun i => f i y)) (f n)); auto.
Qed.
(** A sum of products with one factor varied. *)
Lemma sum_vset n (a : nat -> R) v j x : length v = n -> (j < n)%nat ->
  sumR n (fun k => a k * nth k (vset v j x) 0) = sumR n (fun k => a k * nth k v 0) + a j * (x - nth j v 0).
Proof.
  intros L Hj.
  rewrite (sumR_ext n (fun k => a k * nth k (vset v j x) 0) (fun k => a k * nth k v 0 + (if (j =? k)%nat then a k * (x - nth k v 0) else 0))).
  - rewrite sumR_plus, (sumR_pick n (fun k => a k * (x - nth k v 0)) j Hj). reflexivity.
  - intros k Hk. destruct (Nat.eqb_spec j k) as [->|H].
    + rewrite vset_nth_same by lia. ring.
    + rewrite vset_nth_other by auto. ring.
Qed.
