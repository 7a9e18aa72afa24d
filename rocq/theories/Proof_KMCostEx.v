(** * k-means++ and training on six points of a line *)
From Coq Require Import List Arith Lia Bool ZArith Reals Lra.
From Verif Require Import Base BaseLemmas Num NumX NumF Linalg Model_KMeans Spec_KMeans Spec_Transforms Spec_KMInv Spec_KMCost Proof_KMeans Proof_KMeansEx Proof_KMInvEx.
Import ListNotations.

Definition six : matrix B64 := col1 [0; 20; 3; 2; 22; 39]%Z.
Definition draws : list B64 := [b64_dec 9 1; b64_of_Z 0].
Lemma made_worse : exists C0 m', kpp six 3 3 draws = Ok ([3; 5; 0], C0) /\
  km_predict (km_set (km_new 3 100) C0) six = Ok [2; 0; 0; 0; 1; 1] /\
  km_train tol64 (Ok C0) (km_new 3 100) six = (m', Ok tt) /\
  km_predict m' six = Ok [0; 0; 0; 0; 0; 0] /\
  nltb (cost_of (km_set (km_new 3 100) C0) six) (cost_of m' six) = true.
Proof.
  destruct (kpp six 3 3 draws) as [(ch, C0)|e|] eqn:E.
  - assert (H : (fun r => match r with Ok (ch, C0) => Some (ch, km_predict (km_set (km_new 3 100) C0) six,
        (fun p => (snd p, km_predict (fst p) six, nltb (cost_of (km_set (km_new 3 100) C0) six) (cost_of (fst p) six))) (km_train tol64 (Ok C0) (km_new 3 100) six)) | _ => None end)
      (kpp six 3 3 draws) = Some ([3; 5; 0], Ok [2; 0; 0; 0; 1; 1], (Ok tt, Ok [0; 0; 0; 0; 0; 0], true))) by (vm_compute; reflexivity).
    rewrite E in H. destruct (km_train tol64 (Ok C0) (km_new 3 100) six) as (m', r) eqn:Et. cbv beta iota in H. cbn [fst snd] in H. injection H as H1 H2 H3 H4 H5.
    exists C0, m'. subst. auto.
  - exfalso. assert (H : (match kpp six 3 3 draws with Ok _ => true | _ => false end) = true) by (vm_compute; reflexivity). rewrite E in H. discriminate.
  - exfalso. assert (H : (match kpp six 3 3 draws with Ok _ => true | _ => false end) = true) by (vm_compute; reflexivity). rewrite E in H. discriminate.
Qed.

(** Two equal rows in two clusters: the second cluster loses its row, the first one keeps both. *)
Definition twins : matrix R := Mat [[7%R]; [7%R]] 1.
Lemma twins_step : find_closest_centroids twins twins = Ok ([0; 0], [0%R; 0%R]).
Proof.
  unfold find_closest_centroids, closest, twins, sqdist, vsum, velemul, vsub. cbn. repeat destruct Rlt_dec; try (exfalso; lra). cbn. repeat f_equal; ring.
Qed.
Lemma twins_kept tol iters : (0 < tol)%R -> mwf twins /\ nrows twins = 2 /\ 
  (forall t, t <= iters -> exists C v, centres (Fin tol) (km_new 2 t) (Ok (inj twins)) (inj twins) = Some C /\ nth 0 (mrows C) [] = map Fin v) /\
  (0 < iters -> exists C v, centres (Fin tol) (km_new 2 iters) (Ok (inj twins)) (inj twins) = Some C /\ mrows C = [map Fin v; [NaN]]).
Proof.
  intros Pt. split; [repeat constructor|]. split; [reflexivity|].
  assert (S : forall t, exists v, centres (Fin tol) (km_new 2 (S t)) (Ok (inj twins)) (inj twins) = Some (Mat [map Fin v; [NaN]] 1)).
  { intros t. unfold centres, km_train, init_centroids. cbn [km_k km_iters km_new]. change (nrows (inj twins) <? 2) with false. cbn [rbind].
    change (negb (nrows (inj twins) =? 2)) with false. change (negb (mcols (inj twins) =? mcols (inj twins))) with false. cbn [lloyd]. rewrite find_closest_Fin, twins_step. cbn [rbind].
    rewrite update_spec by reflexivity. cbn [rbind seq map]. rewrite class_mean_X by (now left). rewrite class_mean_NaN by (cbn; intuition discriminate).
    assert (E : nltb (nabs (nsub (@nzero X NumXI) (vsum [Fin 0; Fin 0]))) (Fin tol) = true).
    { cbn. destruct Rlt_dec as [|N]; auto. exfalso. apply N. match goal with |- (Rabs ?x < _)%R => replace x with 0%R by ring end. now rewrite Rabs_R0. }
    rewrite E. cbn [fst km_centroids km_set]. eexists. reflexivity. }
  split.
  - intros [|t] _.
    + exists (inj twins), [7%R]. split; reflexivity.
    + destruct (S t) as (v & E). eexists _, v. split; [exact E|]. reflexivity.
  - intros P. destruct iters as [|t]; [lia|]. destruct (S t) as (v & E). eexists _, v. split; [exact E|]. reflexivity.
Qed.
