(** * Translations, scalings and coordinate permutations are similarities *)
From Coq Require Import List Arith Lia Bool Permutation Reals Lra.
From Verif Require Import Base Num Linalg LinalgR Spec_KNN Spec_DBSCAN2.
Import ListNotations.
Local Open Scope R_scope.

Lemma sum_ext (f g : nat -> R) l l' : (forall j, In j l -> f j = g j) -> Permutation l l' ->
  fold_right Rplus 0 (map f l) = fold_right Rplus 0 (map g l').
Proof.
  intros E P. transitivity (fold_right Rplus 0 (map g l)).
  - f_equal. apply map_ext_in. exact E.
  - clear E. induction P; cbn; lra.
Qed.
Lemma nth_map2_plus n (a t : list R) j : length a = n -> length t = n -> (j < n)%nat -> nth j (map2 Rplus a t) 0 = nth j a 0 + nth j t 0.
Proof. revert a t j. induction n; intros [|x a] [|y t] [|j] La Lt H; cbn in *; try lia; auto. apply IHn; lia. Qed.
Lemma move_similar n t pts : length t = n -> (forall a, In a pts -> length a = n) -> similarity n n 1 (moved t) pts.
Proof.
  intros Lt L a b Ha Hb. rewrite Rmult_1_l. unfold euclid, moved. f_equal. apply sum_ext; auto. intros j Hj. apply in_seq in Hj.
  rewrite !(nth_map2_plus n) by (auto || lia). ring.
Qed.
Lemma scale_similar n s pts : similarity n n (Rabs s) (scaled s) pts.
Proof.
  intros a b _ _. unfold euclid, scaled. rewrite <- sqrt_Rsqr_abs, <- sqrt_mult_alt by apply Rle_0_sqr. f_equal.
  assert (E : forall l, fold_right Rplus 0 (map (fun j => (nth j (map (Rmult s) a) 0 - nth j (map (Rmult s) b) 0) ^ 2) l) = Rsqr s * fold_right Rplus 0 (map (fun j => (nth j a 0 - nth j b 0) ^ 2) l)).
  { assert (Z : forall c j, nth j (map (Rmult s) c) 0 = s * nth j c 0). { intros c j. rewrite <- (Rmult_0_r s) at 1. apply map_nth. }
    induction l as [|j l IH]; cbn [map fold_right]; [ring|]. rewrite IH, !Z. unfold Rsqr. ring. }
  apply E.
Qed.
Lemma reorder_similar n p pts : Permutation p (seq 0 n) -> similarity n n 1 (reordered p) pts.
Proof.
  intros P a b _ _. rewrite Rmult_1_l. unfold euclid, reordered. f_equal. pose proof (Permutation_length P) as L. rewrite seq_length in L.
  rewrite (sum_ext (fun j => (nth j a 0 - nth j b 0) ^ 2) (fun j => (nth j a 0 - nth j b 0) ^ 2) (seq 0 n) p); auto using Permutation_sym. subst n.
  f_equal. apply (nth_ext _ _ ((nth (nth 0 p 0%nat) a 0 - nth (nth 0 p 0%nat) b 0) ^ 2) ((nth (nth 0 p 0%nat) a 0 - nth (nth 0 p 0%nat) b 0) ^ 2)); rewrite !map_length, seq_length; auto.
  intros i Hi. set (d := _ ^ 2).
  rewrite (nth_indep _ d ((fun j => (nth j (map (fun j0 => nth j0 a 0) p) 0 - nth j (map (fun j0 => nth j0 b 0) p) 0) ^ 2) 0%nat)) by (rewrite map_length, seq_length; lia).
  rewrite (map_nth (fun j => (nth j (map (fun j0 => nth j0 a 0) p) 0 - nth j (map (fun j0 => nth j0 b 0) p) 0) ^ 2)), seq_nth by lia. cbn [Nat.add].
  rewrite (nth_indep _ d ((fun j => (nth j a 0 - nth j b 0) ^ 2) 0%nat)) by (rewrite map_length; lia). rewrite (map_nth (fun j => (nth j a 0 - nth j b 0) ^ 2)).
  rewrite !(nth_indep (map _ p) 0 ((fun j0 => nth j0 a 0) 0%nat)) by (rewrite map_length; lia). rewrite (map_nth (fun j0 => nth j0 a 0)).
  rewrite !(nth_indep (map _ p) _ ((fun j0 => nth j0 b 0) 0%nat)) by (rewrite map_length; lia). rewrite (map_nth (fun j0 => nth j0 b 0)). reflexivity.
Qed.
