(** * Proofs: k-means commutes with motions *)
From Coq Require Import List Arith Lia Bool Reals Lra FunctionalExtensionality.
From Verif Require Import Base BaseLemmas Num NumX Linalg LinalgR MatR Euclid Model_KMeans Spec_Calc Spec_KNN Spec_KMeans Spec_Transforms Spec_DBSCAN2 Spec_KMInv.
From Verif Require Import Proof_KMeans Proof_KMeans2 Proof_KMeansEx.
Import ListNotations.

Lemma sqdist_sum n (c x : list R) : length c = n -> length x = n -> sqdist c x = sumR n (fun j => (nth j c 0 - nth j x 0) ^ 2)%R.
Proof.
  intros A B. rewrite sqdist_d2. unfold d2. rewrite (dot_sumR n) by (rewrite vsub_length; congruence). apply sumR_ext. intros j Hj.
  unfold vsub. rewrite (map2_nth nsub c x j 0%R 0%R) by lia. cbn [nsub NumR]. ring.
Qed.

Section Motion.
  Variables (n n' : nat) (T : list R -> list R).
  Hypothesis HT : motion n n' T.
  Hypothesis Hn : 0 < n.

  Lemma motion_pos : 0 < n'.
  Proof using HT Hn.
    destruct HT as (A & b & _ & H). specialize (H 0 0 Hn Hn). rewrite Nat.eqb_refl in H. destruct n'; [cbn in H; lra|lia].
  Qed.
  Lemma motion_len x : length x = n -> length (T x) = n'.
  Proof using HT. destruct HT as (A & b & H & _). intros L. now destruct (H x L). Qed.

  Lemma ortho (A : nat -> nat -> R) (d : nat -> R) :
    (forall k l, k < n -> l < n -> sumR n' (fun j => A j k * A j l)%R = if k =? l then 1%R else 0%R) ->
    sumR n' (fun j => (sumR n (fun k => A j k * d k)) ^ 2)%R = sumR n (fun k => d k ^ 2)%R.
  Proof.
    clear HT Hn. intros H.
    transitivity (sumR n (fun k => sumR n (fun l => d k * d l * sumR n' (fun j => A j k * A j l)))%R).
    - transitivity (sumR n' (fun j => sumR n (fun k => sumR n (fun l => d k * d l * (A j k * A j l))))%R).
      + apply sumR_ext. intros j _. cbn [pow]. rewrite Rmult_1_r. rewrite <- sumR_scal_r. apply sumR_ext. intros k _.
        rewrite <- sumR_scal. apply sumR_ext. intros l _. ring.
      + rewrite sumR_exch. apply sumR_ext. intros k _. rewrite sumR_exch. apply sumR_ext. intros l _. now rewrite sumR_scal.
    - apply sumR_ext. intros k Hk. rewrite (sumR_ext _ _ (fun l => if l =? k then d k ^ 2 else 0)%R).
      + clear H. revert Hk. generalize n as q. induction q as [|q IH]; intros Hk; [lia|]. cbn [sumR]. destruct (Nat.eqb_spec q k) as [->|E].
        * assert (Z : sumR k (fun l => if l =? k then d k ^ 2 else 0)%R = 0%R).
          { apply sumR_zero. intros i Hi. destruct (Nat.eqb_spec i k); [lia|auto]. }
          rewrite Z. lra.
        * rewrite IH by lia. lra.
      + intros l Hl. rewrite H by auto. rewrite (Nat.eqb_sym k l). destruct (Nat.eqb_spec l k) as [->|]; ring.
  Qed.

  Lemma motion_sqdist c x : length c = n -> length x = n -> sqdist (T c) (T x) = sqdist c x.
  Proof using HT.
    intros Lc Lx. rewrite (sqdist_sum n c x), (sqdist_sum n') by auto using motion_len.
    destruct HT as (A & b & HA & HO). destruct (HA c Lc) as (_ & Hc). destruct (HA x Lx) as (_ & Hx).
    rewrite <- (ortho A (fun k => nth k c 0 - nth k x 0)%R HO). apply sumR_ext. intros j Hj. rewrite Hc, Hx by auto. f_equal.
    transitivity (sumR n (fun k => A j k * nth k c 0) - sumR n (fun k => A j k * nth k x 0))%R; [ring|].
    rewrite <- sumR_minus. apply sumR_ext. intros; ring.
  Qed.

  Definition frel (r r' : list X) : Prop := exists v, length v = n /\ r = map Fin v /\ r' = map Fin (T v).
  Notation rrel := (moved_row n n' T).
  Definition mrel (A B : matrix X) : Prop := mcols A = n /\ mcols B = n' /\ Forall2 rrel (mrows A) (mrows B).
  Definition mfrel (A B : matrix X) : Prop := mcols A = n /\ mcols B = n' /\ Forall2 frel (mrows A) (mrows B).

  Lemma sqdist_NaN q v : 0 < q -> length v = q -> sqdist (repeat NaN q) (map Fin v) = NaN.
  Proof.
    clear HT Hn. intros P L. destruct q as [|q]; [lia|]. destruct v as [|a v]; [discriminate|]. unfold sqdist, velemul, vsub. cbn [repeat map map2].
    unfold vsum. cbn [fold_left]. change (nadd nzero (nmul (nsub NaN (Fin a)) (nsub NaN (Fin a)))) with NaN.
    generalize (map2 nmul (map2 nsub (repeat NaN q) (map Fin v)) (map2 nsub (repeat NaN q) (map Fin v))). intros l.
    induction l as [|y l IH]; cbn [fold_left]; auto.
  Qed.
  Lemma sqdist_rel c c' x x' : rrel c c' -> frel x x' -> sqdist c x = sqdist c' x'.
  Proof using HT Hn.
    intros Hc (v & Lv & -> & ->). destruct Hc as [(w & Lw & -> & ->)|(-> & ->)].
    - rewrite !sqdist_Fin. f_equal. symmetry. now apply motion_sqdist.
    - rewrite !sqdist_NaN; auto using motion_pos, motion_len.
  Qed.
  Lemma closest_rel A B x x' : mrel A B -> frel x x' -> closest A n x = closest B n' x'.
  Proof using HT Hn.
    intros (EA & EB & H) Hx. unfold closest. rewrite EA, EB, !Nat.eqb_refl. cbn [rassert]. f_equal.
    induction H as [|c c' l l' Hc _ IH]; cbn [map]; auto. f_equal; auto. now apply sqdist_rel.
  Qed.
  Lemma find_rel A B M M' : mrel A B -> mfrel M M' -> find_closest_centroids A M = find_closest_centroids B M'.
  Proof using HT Hn.
    intros HA (EM & EM' & H). unfold find_closest_centroids. rewrite EM, EM'.
    assert (E : rmap (closest A n) (mrows M) = rmap (closest B n') (mrows M')).
    { induction H as [|x x' l l' Hx _ IH]; cbn [rmap]; auto. rewrite (closest_rel A B x x') by auto. now rewrite IH. }
    now rewrite E.
  Qed.

  (** Means *)
  Definition rmean (q : nat) (vs : list (list R)) : list R := map (fun j => rsum (map (fun v => nth j v 0%R) vs) / INR (length vs))%R (seq 0 q).
  Lemma col_mean_Fin q (vs : list (list R)) : vs <> [] -> col_mean (Mat (map (map Fin) vs) q) = map Fin (rmean q vs).
  Proof.
    intros NE. unfold col_mean, rmean. cbn [mcols]. rewrite map_map. apply map_ext. intros j. unfold nrows, col. cbn [mrows]. rewrite !map_map, !map_length.
    rewrite (map_ext _ (fun v => Fin (nth j v 0%R))).
    2: { intros v. change (@nzero X NumXI) with (Fin 0%R). apply map_nth. }
    rewrite <- (map_map (fun v => nth j v 0%R) Fin), vsum_Fin, vsum_R. cbn [nofnat NumXI ndiv xdiv].
    destruct (Req_EM_T (INR (length vs)) 0) as [Z|Z]; auto. exfalso. apply (not_0_INR (length vs)); auto. destruct vs; cbn; congruence.
  Qed.
  Lemma col_mean_nil q : col_mean (F := X) (Mat [] q) = repeat NaN q.
  Proof.
    unfold col_mean. cbn [mcols].
    assert (E : forall j : nat, In j (seq 0 q) -> ndiv (vsum (col {| mrows := []; mcols := q |} j)) (nofnat (nrows (F := X) {| mrows := []; mcols := q |})) = NaN).
    { intros j _. cbn. destruct (Req_EM_T 0 0); [|congruence]. unfold sgn_inf. repeat destruct Rlt_dec; auto; lra. }
    rewrite (map_ext_in _ (fun _ => NaN)) by exact E. clear E. generalize 0 as s. induction q; intros s; cbn; auto. now rewrite IHq.
  Qed.
  Lemma rmean_nth q vs j : j < q -> nth j (rmean q vs) 0%R = (rsum (map (fun v => nth j v 0) vs) / INR (length vs))%R.
  Proof.
    intros Hj. unfold rmean. match goal with |- context [map ?f (seq 0 q)] => set (g := f) end.
    rewrite (nth_indep _ 0%R (g 0)) by (now rewrite map_length, seq_length). now rewrite map_nth, seq_nth by auto.
  Qed.
  Lemma rmean_length q vs : length (rmean q vs) = q.
  Proof. unfold rmean. now rewrite map_length, seq_length. Qed.
  Lemma rsum_sumR_exch q (vs : list (list R)) (a : nat -> R) :
    rsum (map (fun v => sumR q (fun k => a k * nth k v 0)%R) vs) = sumR q (fun k => a k * rsum (map (fun v => nth k v 0) vs))%R.
  Proof.
    induction vs as [|v vs IH]; cbn [map rsum fold_right].
    - symmetry. apply sumR_zero. intros. cbn. ring.
    - change (sumR q (fun k => a k * nth k v 0) + rsum (map (fun v => sumR q (fun k => a k * nth k v 0)) vs) =
              sumR q (fun k => a k * (nth k v 0 + rsum (map (fun v => nth k v 0) vs))))%R.
      rewrite IH, <- sumR_plus. apply sumR_ext. intros. ring.
  Qed.
  Lemma motion_mean vs : vs <> [] -> Forall (fun v => length v = n) vs -> T (rmean n vs) = rmean n' (map T vs).
  Proof using HT.
    intros NE HF. pose proof (motion_len (rmean n vs) (rmean_length n vs)) as LT. destruct HT as (A & b & HA & _).
    destruct (HA (rmean n vs) (rmean_length n vs)) as (_ & E).
    apply (nth_ext _ _ 0%R 0%R); [now rewrite rmean_length|]. intros j Hj. rewrite LT in Hj. rewrite E, rmean_nth by auto. rewrite map_map, map_length.
    assert (NZ : INR (length vs) <> 0%R) by (apply not_0_INR; destruct vs; cbn; congruence).
    rewrite (map_ext_in _ (fun v => b j + sumR n (fun k => A j k * nth k v 0))%R).
    2: { intros v Hv. rewrite Forall_forall in HF. destruct (HA v (HF v Hv)) as (_ & Ev). now apply Ev. }
    assert (S1 : rsum (map (fun v => b j + sumR n (fun k => A j k * nth k v 0))%R vs) = (INR (length vs) * b j + sumR n (fun k => A j k * rsum (map (fun v => nth k v 0) vs)))%R).
    { rewrite <- rsum_sumR_exch. clear. induction vs as [|v vs IH]; [cbn; lra|]. cbn [map length]. rewrite S_INR.
      cbn [rsum fold_right]. unfold rsum in *. cbn [fold_right]. rewrite IH. lra. }
    rewrite S1. rewrite (sumR_ext n (fun k => A j k * nth k (rmean n vs) 0)%R (fun k => / INR (length vs) * (A j k * rsum (map (fun v => nth k v 0) vs)))%R).
    - rewrite sumR_scal. field. auto.
    - intros k Hk. rewrite rmean_nth by auto. unfold Rdiv. ring.
  Qed.
  Lemma Forall2_frel l l' : Forall2 frel l l' -> exists vs, Forall (fun v => length v = n) vs /\ l = map (map Fin) vs /\ l' = map (map Fin) (map T vs).
  Proof.
    induction 1 as [|r r' l l' (v & Lv & -> & ->) _ (vs & F & -> & ->)]; [exists []; auto|]. exists (v :: vs). cbn. auto.
  Qed.
  Lemma mean_rel l l' : Forall2 frel l l' -> rrel (col_mean (Mat l n)) (col_mean (Mat l' n')).
  Proof using HT.
    intros H. destruct (Forall2_frel l l' H) as (vs & HF & -> & ->). destruct vs as [|v vs].
    - right. cbn [map]. now rewrite !col_mean_nil.
    - left. exists (rmean n (v :: vs)). rewrite rmean_length. split; auto. rewrite !col_mean_Fin by easy. split; auto. f_equal.
      symmetry. apply motion_mean; auto. easy.
  Qed.

  Lemma rows_rel {A B} (P : A -> B -> Prop) l l' idx : Forall2 P l l' ->
    match rows_opt l idx, rows_opt l' idx with Some a, Some b => Forall2 P a b | None, None => True | _, _ => False end.
  Proof.
    intros H. induction idx as [|i idx IH]; cbn [rows_opt]; auto.
    assert (E : match nth_error l i, nth_error l' i with Some a, Some b => P a b | None, None => True | _, _ => False end).
    { clear IH. revert i. induction H as [|x y l l' Hx _ IH]; intros [|i]; cbn [nth_error]; auto; apply (IH i). }
    destruct (nth_error l i), (nth_error l' i); try easy. destruct (rows_opt l idx), (rows_opt l' idx); try easy. auto.
  Qed.
  Definition resrel {A B} (P : A -> B -> Prop) (r : res A) (r' : res B) : Prop :=
    match r, r' with Ok a, Ok b => P a b | Err e, Err e' => e = e' | Panic, Panic => True | _, _ => False end.
  Lemma select_rel M M' idx : mfrel M M' -> resrel mfrel (select_rows M idx) (select_rows M' idx).
  Proof.
    intros (EM & EM' & H). unfold select_rows. pose proof (rows_rel frel _ _ idx H) as Q.
    destruct (rows_opt (mrows M) idx), (rows_opt (mrows M') idx); try easy; repeat split; auto.
  Qed.
  Lemma means_rel {A} M M' (cls : list A) (g : A -> list nat) : mfrel M M' ->
    resrel (Forall2 rrel) (rmap (fun v => let? m := select_rows M (g v) in Ok (col_mean m)) cls) (rmap (fun v => let? m := select_rows M' (g v) in Ok (col_mean m)) cls).
  Proof using HT.
    intros H. induction cls as [|v cls IH]; cbn [rmap]; [constructor|]. pose proof (select_rel M M' (g v) H) as Q.
    destruct (select_rows M (g v)) as [a|e|], (select_rows M' (g v)) as [a'|e'|]; cbn in *; try easy.
    destruct rmap as [bs|e|], rmap as [bs'|e'|]; cbn in *; try easy. constructor; auto.
    destruct Q as (E1 & E2 & Q). destruct a as [ra ca], a' as [ra' ca']. cbn in *. subst. now apply mean_rel.
  Qed.
  Lemma update_rel k M M' a : mfrel M M' -> resrel mrel (update_centroids k M a) (update_centroids k M' a).
  Proof using HT.
    intros H. unfold update_centroids. pose proof (means_rel M M' (seq 0 k) (class_rows a) H) as Q.
    destruct rmap as [bs|e|], rmap as [bs'|e'|]; cbn in *; try easy. destruct H as (E1 & E2 & _). repeat split; auto.
  Qed.
  Lemma lloyd_rel tol k M M' : mfrel M M' -> forall iters cost A B, mrel A B -> resrel mrel (lloyd tol k M iters cost A) (lloyd tol k M' iters cost B).
  Proof using HT Hn.
    intros HM iters. induction iters as [|iters IH]; intros cost A B HA; cbn [lloyd]; [exact HA|].
    rewrite (find_rel A B M M' HA HM). destruct find_closest_centroids as [(idx, ds)|e|]; cbn [rbind]; try easy.
    pose proof (update_rel k M M' idx HM) as Q. destruct (update_centroids k M idx) as [C|e|], (update_centroids k M' idx) as [C'|e'|]; cbn [rbind resrel] in *; try easy.
    destruct nltb; [exact Q|]. now apply IH.
  Qed.
  Lemma rel_nrows A B : mrel A B -> nrows A = nrows B.
  Proof. intros (_ & _ & H). unfold nrows. now induction H; cbn; auto. Qed.
  Lemma frel_nrows A B : mfrel A B -> nrows A = nrows B.
  Proof. intros (_ & _ & H). unfold nrows. now induction H; cbn; auto. Qed.
  Definition optrel {A B} (P : A -> B -> Prop) (o : option A) (o' : option B) : Prop :=
    match o, o' with Some a, Some b => P a b | None, None => True | _, _ => False end.
  Lemma init_rel m M M' i i' : mfrel M M' -> resrel mrel i i' -> resrel mrel (init_centroids m M i) (init_centroids m M' i').
  Proof.
    intros HM HI. unfold init_centroids. rewrite <- (frel_nrows M M' HM). destruct (_ <? _); [reflexivity|].
    destruct i as [C|e|], i' as [C'|e'|]; cbn [resrel rbind] in *; try easy. rewrite <- (rel_nrows C C' HI). destruct (negb (nrows C =? km_k m)); [reflexivity|].
    destruct HI as (E1 & E2 & H). destruct HM as (F1 & F2 & _). rewrite E1, E2, F1, F2, !Nat.eqb_refl. cbn. repeat split; auto.
  Qed.
  Lemma train_rel tol m M M' i i' : km_centroids m = None -> mfrel M M' -> resrel mrel i i' ->
    snd (km_train tol i m M) = snd (km_train tol i' m M') /\ optrel mrel (km_centroids (fst (km_train tol i m M))) (km_centroids (fst (km_train tol i' m M'))).
  Proof using HT Hn.
    intros Hm HM HI. unfold km_train. pose proof (init_rel m M M' i i' HM HI) as Q.
    destruct (init_centroids m M i) as [C|e|], (init_centroids m M' i') as [C'|e'|]; cbn [resrel] in Q; try easy.
    - pose proof (lloyd_rel tol (km_k m) M M' HM (km_iters m) nzero C C' Q) as Z.
      destruct lloyd as [D|e|], lloyd as [D'|e'|]; cbn [resrel] in Z; try easy; cbn; repeat split; auto; try congruence; apply Q || apply Z.
    - cbn. rewrite Hm. cbn. split; auto. congruence.
    - cbn. rewrite Hm. easy.
  Qed.
  Lemma clusters_rel tol m M M' Q Q' i i' : km_centroids m = None -> mfrel M M' -> mfrel Q Q' -> resrel mrel i i' ->
    clusters tol m i M Q = clusters tol m i' M' Q'.
  Proof using HT Hn.
    intros Hm HM HQ HI. unfold clusters. destruct (train_rel tol m M M' i i' Hm HM HI) as (E & R).
    destruct (km_train tol i m M) as (m1, r1), (km_train tol i' m M') as (m2, r2). cbn [fst snd] in *. subst r2. destruct r1; auto.
    unfold km_predict. destruct (km_centroids m1) as [C|], (km_centroids m2) as [C'|]; cbn [optrel] in R; try easy. now rewrite (find_rel C C' Q Q').
  Qed.

  Lemma inj_rel M : mwf M -> mcols M = n -> mfrel (inj M) (inj (map_rows n' T M)).
  Proof.
    intros W E. unfold mfrel, inj, map_rows. cbn [mrows mcols]. split; auto. split; auto. unfold mwf in W. rewrite E in W.
    induction W as [|r l Hr _ IH]; cbn [map]; constructor; auto. now exists r.
  Qed.
  Lemma frel_rel A B : mfrel A B -> mrel A B.
  Proof. intros (E1 & E2 & H). repeat split; auto. induction H; constructor; auto. now left. Qed.

  (** Initialisers *)
  Lemma kpp_loop_rel M M' : mfrel M M' -> forall us ch cs cs', Forall2 frel cs cs' ->
    resrel (fun p p' => fst p = fst p' /\ Forall2 frel (snd p) (snd p')) (kpp_loop M us ch cs) (kpp_loop M' us ch cs').
  Proof using HT Hn.
    intros HM us. induction us as [|u us IH]; intros ch cs cs' H; cbn [kpp_loop]; [cbn; auto|].
    assert (HC : mrel (Mat cs (mcols M)) (Mat cs' (mcols M'))).
    { destruct HM as (E1 & E2 & _). apply frel_rel. repeat split; auto. }
    rewrite (find_rel _ _ M M' HC HM). destruct find_closest_centroids as [(idx, ds)|e|]; cbn [rbind]; try easy.
    destruct (negb _); [reflexivity|]. destruct sample_discretely as [nx|e|]; cbn [rbind]; try easy.
    assert (E : resrel frel (ridx (mrows M) nx) (ridx (mrows M') nx)).
    { destruct HM as (_ & _ & HM). unfold ridx. clear -HM. revert nx. induction HM; intros [|i]; cbn; auto. }
    destruct (ridx (mrows M) nx) as [r|e|], (ridx (mrows M') nx) as [r'|e'|]; cbn [rbind resrel] in *; try easy.
    apply IH. apply Forall2_app; auto.
  Qed.
  Lemma kpp_rel M M' k first us : mfrel M M' ->
    resrel (fun p p' => fst p = fst p' /\ mrel (snd p) (snd p')) (kpp M k first us) (kpp M' k first us).
  Proof using HT Hn.
    intros HM. unfold kpp.
    assert (E : resrel frel (ridx (mrows M) first) (ridx (mrows M') first)).
    { destruct HM as (_ & _ & HM). unfold ridx. clear -HM. revert first. induction HM; intros [|i]; cbn; auto. }
    destruct (ridx (mrows M) first) as [r|e|], (ridx (mrows M') first) as [r'|e'|]; cbn [rbind resrel] in *; try easy.
    pose proof (kpp_loop_rel M M' HM us [first] [r] [r'] ltac:(auto)) as Q.
    destruct (kpp_loop M us [first] [r]) as [(ch, cs)|e|], (kpp_loop M' us [first] [r']) as [(ch', cs')|e'|]; cbn [rbind resrel fst snd] in *; try easy.
    destruct Q as (-> & Q). destruct HM as (E1 & E2 & _). rewrite E1, E2.
    assert (L : length cs = length cs') by (clear -Q; induction Q; cbn; auto). rewrite L.
    assert (Eb : (length cs' * n =? k * n) = (length cs' * n' =? k * n')).
    { pose proof motion_pos as P. destruct (Nat.eqb_spec (length cs' * n) (k * n)) as [G|G], (Nat.eqb_spec (length cs' * n') (k * n')) as [G'|G']; auto; exfalso.
      - apply Nat.mul_cancel_r in G; [subst; now apply G'|lia].
      - apply Nat.mul_cancel_r in G'; [subst; now apply G|lia]. }
    rewrite Eb. unfold rassert. destruct (length cs' * n' =? k * n'); [|exact I]. cbn [resrel fst snd]. split; [reflexivity|]. apply frel_rel. split; [reflexivity|]. split; [reflexivity|exact Q].
  Qed.
End Motion.

Theorem motion_train n n' T : motion n n' T -> 0 < n -> forall (M C0 : matrix R), mwf M -> mcols M = n -> mwf C0 -> mcols C0 = n ->
  forall tol k iters Q, mwf Q -> mcols Q = n ->
  clusters tol (km_new k iters) (Ok (inj (map_rows n' T C0))) (inj (map_rows n' T M)) (inj (map_rows n' T Q)) =
  clusters tol (km_new k iters) (Ok (inj C0)) (inj M) (inj Q).
Proof.
  intros HT Hn M C0 WM EM WC EC tol k iters Q WQ EQ. symmetry. eapply clusters_rel; eauto using inj_rel. cbn. eauto using frel_rel, inj_rel.
Qed.
Theorem motion_centres n n' T : motion n n' T -> 0 < n -> forall (M C0 : matrix R), mwf M -> mcols M = n -> mwf C0 -> mcols C0 = n ->
  forall tol k iters C, centres tol (km_new k iters) (Ok (inj C0)) (inj M) = Some C ->
  exists C', centres tol (km_new k iters) (Ok (inj (map_rows n' T C0))) (inj (map_rows n' T M)) = Some C' /\
    mcols C' = n' /\ Forall2 (moved_row n n' T) (mrows C) (mrows C').
Proof.
  intros HT Hn M C0 WM EM WC EC tol k iters C H. unfold centres in *.
  destruct (train_rel n n' T HT Hn tol (km_new k iters) (inj M) (inj (map_rows n' T M)) (Ok (inj C0)) (Ok (inj (map_rows n' T C0)))) as (_ & R); auto using inj_rel.
  { cbn. auto using frel_rel, inj_rel. }
  rewrite H in R. destruct (km_centroids (fst (km_train tol (Ok (inj (map_rows n' T C0))) (km_new k iters) (inj (map_rows n' T M))))) as [C'|]; [|easy]. cbn [optrel] in R. destruct R as (_ & E & R). eauto.
Qed.
Theorem motion_forgy n n' T : motion n n' T -> 0 < n -> forall (M Q : matrix R), mwf M -> mcols M = n -> mwf Q -> mcols Q = n ->
  forall tol k iters fuel (f : option (res (list nat)) -> R),
  expect (forgy fuel k (inj (map_rows n' T M))) (fun o => f (option_map (fun i => clusters tol (km_new k iters) i (inj (map_rows n' T M)) (inj (map_rows n' T Q))) o)) =
  expect (forgy fuel k (inj M)) (fun o => f (option_map (fun i => clusters tol (km_new k iters) i (inj M) (inj Q)) o)).
Proof.
  intros HT Hn M Q WM EM WQ EQ tol k iters fuel f. pose proof (inj_rel n n' T M WM EM) as RM. pose proof (inj_rel n n' T Q WQ EQ) as RQ.
  unfold forgy. rewrite <- (frel_nrows n n' T _ _ RM). rewrite !expect_bind. apply expect_ext. intros o _. cbn [expect]. f_equal.
  destruct o as [ch|]; cbn [option_map]; auto. f_equal. symmetry. eapply clusters_rel; eauto.
  pose proof (select_rel n n' T _ _ ch RM) as S. destruct select_rows as [C|e|], select_rows as [C'|e'|]; cbn in *; try easy. now apply frel_rel.
Qed.
Theorem motion_partition n n' T : motion n n' T -> 0 < n -> forall (M Q : matrix R), mwf M -> mcols M = n -> mwf Q -> mcols Q = n ->
  forall tol k iters (f : res (list nat) -> R),
  expect (random_partition k (inj (map_rows n' T M))) (fun i => f (clusters tol (km_new k iters) i (inj (map_rows n' T M)) (inj (map_rows n' T Q)))) =
  expect (random_partition k (inj M)) (fun i => f (clusters tol (km_new k iters) i (inj M) (inj Q))).
Proof.
  intros HT Hn M Q WM EM WQ EQ tol k iters f. pose proof (inj_rel n n' T M WM EM) as RM. pose proof (inj_rel n n' T Q WQ EQ) as RQ.
  unfold random_partition. rewrite <- (frel_nrows n n' T _ _ RM). rewrite !expect_bind. apply expect_ext. intros a _. cbn [expect]. f_equal.
  symmetry. eapply clusters_rel; eauto. pose proof (means_rel n n' T HT _ _ a (fun v => v) RM) as S.
  destruct rmap as [C|e|], rmap as [C'|e'|]; cbn in *; try easy; repeat split; auto.
Qed.
Theorem motion_kpp n n' T : motion n n' T -> 0 < n -> forall (M Q : matrix R), mwf M -> mcols M = n -> mwf Q -> mcols Q = n ->
  forall tol k iters first us,
  rmap1 fst (kpp (inj (map_rows n' T M)) k first us) = rmap1 fst (kpp (inj M) k first us) /\
  clusters tol (km_new k iters) (rmap1 snd (kpp (inj (map_rows n' T M)) k first us)) (inj (map_rows n' T M)) (inj (map_rows n' T Q)) =
  clusters tol (km_new k iters) (rmap1 snd (kpp (inj M) k first us)) (inj M) (inj Q).
Proof.
  intros HT Hn M Q WM EM WQ EQ tol k iters first us. pose proof (inj_rel n n' T M WM EM) as RM. pose proof (inj_rel n n' T Q WQ EQ) as RQ.
  pose proof (kpp_rel n n' T HT Hn _ _ k first us RM) as S. split.
  - destruct kpp as [(a, b)|e|], kpp as [(a', b')|e'|]; cbn in *; try easy; f_equal; intuition congruence.
  - symmetry. eapply clusters_rel; eauto. destruct kpp as [(a, b)|e|], kpp as [(a', b')|e'|]; cbn in *; try easy.
Qed.
