(** Lemmas for [C98_stop_rule]. *)
From Coq Require Import List Arith Lia Bool Reals Lra.
From Verif Require Import Base BaseLemmas Num NumX NumOrd Linalg LinalgR Model_KMeans Spec_Calc Spec_KNN Spec_KMeans Spec_KMStop Spec_Transforms Proof_KMeans Proof_KMeans2 Proof_KMeansEx.
Import ListNotations.

Lemma settles_cons tol prev j js : (tol <= Rabs (prev - j))%R -> settles tol j js -> settles tol prev (j :: js).
Proof.
  intros H (js' & i & -> & A & B). exists (j :: js'), i. split; [reflexivity|]. split; [split; assumption|]. destruct js' as [|x js']; [exact B|].
  replace (last (j :: x :: js') prev) with (last (x :: js') j); [exact B|]. change (last (j :: x :: js') prev) with (last (x :: js') prev). clear. revert x. induction js' as [|y l IH]; intros x; [reflexivity|]. apply IH.
Qed.
Lemma lloyd_stop tol (M : matrix R) k : mwf M -> 0 < k -> forall iters cost C, mwf C -> mcols C = mcols M -> nrows C = k ->
  exists C' l, lloyd (Fin tol) k (inj M) iters (Fin cost) (inj C) = Ok C' /\ lloyd_run M k C l /\
    ((C' = inj (last_centres C l) /\ ((length l = iters /\ apart tol cost (run_costs M C l)) \/ (length l <= iters /\ settles tol cost (run_costs M C l)))) \/
     (length l < iters /\ apart tol cost (run_costs M C l) /\ exists a C2, lloyd_step_spec M k a (last_centres C l) C2 /\ ~ nonempty a k)).
Proof.
  intros WX K. induction iters as [|iters IH]; intros cost C WC W KC.
  - exists (inj C), []. cbn [lloyd]. split; [reflexivity|]. split; [constructor|]. left. split; [reflexivity|]. left. split; [reflexivity|exact I].
  - destruct (closest_to_step M C k WX WC W KC K) as (a & ds & C1 & E1 & E2 & WC1 & St).
    assert (OB : vsum ds = objective M C a).
    { destruct (lloyd_step M C WX WC W ltac:(lia)) as (a' & ds' & C'' & Ea & Eb & _). rewrite E1 in Ea. injection Ea as <- <-. exact Eb. }
    destruct (St) as (La & _ & K1 & W1 & _).
    destruct (nonempty_dec a k) as [NE|NE].
    + cbn [lloyd]. rewrite find_closest_Fin, E1. cbn [rbind]. rewrite (update_Fin _ _ _ _ La NE E2). cbn [rbind]. rewrite vsum_Fin, OB.
      destruct (nltb (nabs (nsub (Fin cost) (Fin (objective M C a)))) (Fin tol)) eqn:Q; cbn in Q; destruct (Rlt_dec _ tol) as [G|G] in Q; try discriminate.
      * exists (inj C1), [(a, C1)]. split; [reflexivity|]. split; [econstructor; eauto; constructor|]. left. split; [reflexivity|]. right. split; [cbn; lia|]. exists [], (objective M C a). cbn. auto.
      * apply Rnot_lt_le in G. destruct (IH (objective M C a) C1 WC1 W1 K1) as (C' & l & EL & Run & Fin').
        exists C', ((a, C1) :: l). split; [exact EL|]. split; [econstructor; eauto|]. rewrite last_centres_cons. cbn [run_costs length].
        destruct Fin' as [(-> & [(L & A)|(L & A)])|(L & A & B)].
        -- left. split; [reflexivity|]. left. split; [lia|]. split; assumption.
        -- left. split; [reflexivity|]. right. split; [lia|]. now apply settles_cons.
        -- right. split; [lia|]. split; [split; assumption|exact B].
    + destruct (lloyd_total (Fin tol) k (inj M) K (S iters) (Fin cost) (inj C)) as (C' & Q); [exact W|now rewrite inj_nrows|].
      exists C', []. split; [exact Q|]. split; [constructor|]. right. split; [cbn; lia|]. split; [exact I|]. exists a, C1. auto.
Qed.
Theorem train_stop_rule (tol : R) (m : KMeans X) (M C0 : matrix R) : mwf M -> mwf C0 -> mcols C0 = mcols M -> nrows C0 = km_k m -> 0 < km_k m <= nrows M ->
  exists m' C l, km_train (Fin tol) (Ok (inj C0)) m (inj M) = (m', Ok tt) /\ km_centroids m' = Some C /\ lloyd_run M (km_k m) C0 l /\
    ((C = inj (last_centres C0 l) /\ ((length l = km_iters m /\ apart tol 0 (run_costs M C0 l)) \/ (length l <= km_iters m /\ settles tol 0 (run_costs M C0 l)))) \/
     (length l < km_iters m /\ apart tol 0 (run_costs M C0 l) /\ exists a C2, lloyd_step_spec M (km_k m) a (last_centres C0 l) C2 /\ ~ nonempty a (km_k m))).
Proof.
  intros WX WC W K [P LE]. unfold km_train, init_centroids. rewrite !inj_nrows.
  assert (E : (nrows M <? km_k m) = false) by (apply Nat.ltb_ge; lia). rewrite E. cbn [rbind]. change (mcols (inj C0)) with (mcols C0).
  change (mcols (inj M)) with (mcols M). rewrite inj_nrows, K, W, !Nat.eqb_refl. cbn [negb].
  destruct (lloyd_stop tol M (km_k m) WX P (km_iters m) 0%R C0 WC W K) as (C & l & EL & Run & Fin').
  change (@nzero X NumXI) with (Fin 0). rewrite EL. exists (km_set m C), C, l. repeat split; auto.
Qed.
