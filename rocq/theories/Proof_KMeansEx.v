(** * k-means: finite and non-finite centroids; witnesses *)
From Coq Require Import List Arith Lia Bool Reals Lra Permutation ZArith.
From Verif Require Import Base BaseLemmas Num NumX NumF NumOrd ArgLemmas Linalg LinalgR Euclid Spec_Calc CalcR Model_KMeans Spec_KNN Spec_KMeans Spec_Transforms
  Proof_KMeans Proof_KMeans2.
Import ListNotations.

Lemma inj_nrows m : nrows (inj m) = nrows m. Proof. unfold nrows, inj. cbn. apply map_length. Qed.
Lemma nth_inj m i : nth i (mrows (inj m)) [] = map Fin (nth i (mrows m) []).
Proof. unfold inj. cbn [mrows]. change (@nil X) with (map Fin []). apply map_nth. Qed.
Lemma vsum_Fin l : vsum (map Fin l) = Fin (vsum l).
Proof.
  unfold vsum. change (@nzero X NumXI) with (Fin (@nzero R NumR)). generalize (@nzero R NumR) as a.
  induction l as [|x l IH]; intros a; cbn [map fold_left]; auto.
  change (nadd (Fin a) (Fin x)) with (Fin (a + x)%R). apply (IH (a + x)%R).
Qed.
Lemma sqdist_Fin c x : sqdist (map Fin c) (map Fin x) = Fin (sqdist c x).
Proof.
  unfold sqdist, velemul, vsub. rewrite <- vsum_Fin. f_equal. revert x. induction c as [|a c IH]; intros [|b x]; cbn [map map2]; auto.
  apply f_equal2; [reflexivity|apply IH].
Qed.
Lemma argbest_Fin l : forall i bi bv, argbest (fun v m => nltb v m) (map Fin l) i bi (Fin bv) =
  (fst (argbest (fun v m => nltb v m) l i bi bv), Fin (snd (argbest (fun v m => nltb v m) l i bi bv))).
Proof.
  induction l as [|x l IH]; intros; cbn [map argbest]; auto.
  change (nltb (Fin x) (Fin bv)) with (if Rlt_dec x bv then true else false).
  change (nltb x bv) with (if Rlt_dec x bv then true else false). destruct (Rlt_dec x bv); apply IH.
Qed.
Lemma closest_Fin C w x : closest (inj C) w (map Fin x) = match closest C w x with Ok (j, d) => Ok (j, Fin d) | Err e => Err e | Panic => Panic end.
Proof.
  unfold closest. change (mcols (inj C)) with (mcols C). destruct (mcols C =? w); cbn [rassert]; auto.
  unfold inj. cbn [mrows]. rewrite map_map.
  rewrite (map_ext _ (fun c => Fin (sqdist c x))) by (intros; apply sqdist_Fin). rewrite <- (map_map (fun c => sqdist c x) Fin).
  destruct (map (fun c => sqdist c x) (mrows C)) as [|d l]; cbn [argmin map]; auto.
  rewrite argbest_Fin. now destruct argbest.
Qed.
Lemma find_closest_Fin C M : find_closest_centroids (inj C) (inj M) =
  match find_closest_centroids C M with Ok (a, d) => Ok (a, map Fin d) | Err e => Err e | Panic => Panic end.
Proof.
  unfold find_closest_centroids. change (mcols (inj M)) with (mcols M). unfold inj at 2. cbn [mrows].
  assert (E : rmap (closest (inj C) (mcols M)) (map (map Fin) (mrows M)) =
     match rmap (closest C (mcols M)) (mrows M) with Ok l => Ok (map (fun p => (fst p, Fin (snd p))) l) | Err e => Err e | Panic => Panic end).
  { induction (mrows M) as [|x l IH]; cbn [map rmap]; auto. rewrite closest_Fin. destruct (closest C (mcols M) x) as [[j d]|e|]; cbn [rbind]; auto.
    rewrite IH. destruct (rmap (closest C (mcols M)) l); cbn; auto. }
  rewrite E. destruct (rmap (closest C (mcols M)) (mrows M)); cbn [rbind]; auto. rewrite !map_map. reflexivity.
Qed.

Lemma class_mean_X M cl c : In c cl -> class_mean (inj M) cl c = map Fin (class_mean M cl c).
Proof.
  intros IN. unfold class_mean, col_mean. change (mcols (inj M)) with (mcols M). cbn [mcols]. rewrite map_map. apply map_ext. intros j.
  unfold nrows. cbn [mrows]. rewrite !map_length. unfold col. cbn [mrows]. rewrite !map_map.
  rewrite (map_ext _ (fun i => Fin (nth j (nth i (mrows M) []) 0%R))).
  2:{ intros i. rewrite nth_inj. change (@nzero X NumXI) with (Fin 0). apply map_nth. }
  rewrite <- (map_map (fun i => nth j (nth i (mrows M) []) 0%R) Fin), vsum_Fin. cbn [nofnat NumXI ndiv xdiv].
  pose proof (class_rows_nonempty cl c IN) as P. destruct (Req_EM_T (INR (length (class_rows cl c))) 0) as [Z|Z]; auto.
  exfalso. apply (not_0_INR (length (class_rows cl c))); auto. lia.
Qed.
Lemma class_rows_empty cl c : ~ In c cl -> class_rows cl c = [].
Proof.
  intros H. unfold class_rows. destruct (filter _ (seq 0 (length cl))) as [|i l] eqn:E; auto. exfalso.
  assert (Q : In i (filter (fun i => nth i cl (S c) =? c) (seq 0 (length cl)))) by (rewrite E; now left).
  apply filter_In in Q. destruct Q as [A B]. apply Nat.eqb_eq in B. apply in_seq in A. apply H. rewrite <- B. apply nth_In. lia.
Qed.
Lemma class_mean_NaN M cl c : ~ In c cl -> class_mean (inj M) cl c = repeat NaN (mcols M).
Proof.
  intros IN. unfold class_mean, col_mean. change (mcols (inj M)) with (mcols M). cbn [mcols]. rewrite class_rows_empty by auto. cbn [map].
  assert (E : forall j : nat, In j (seq 0 (mcols M)) -> ndiv (vsum (col {| mrows := []; mcols := mcols M |} j)) (nofnat (nrows (F := X) {| mrows := []; mcols := mcols M |})) = NaN).
  { intros j _. cbn. destruct (Req_EM_T 0 0); [|congruence]. unfold sgn_inf. repeat destruct Rlt_dec; auto; lra. }
  rewrite (map_ext_in _ _ _ E). clear. generalize 0 as s. generalize (mcols M) as n.
  induction n as [|n IH]; intros s; cbn; f_equal; auto.
Qed.

Theorem update_finite_iff M cl k : length cl = nrows M -> exists C, update_centroids k (inj M) cl = Ok C /\ nrows C = k /\
  forall c, c < k -> (In c cl -> exists r, nth c (mrows C) [] = map Fin r) /\ (~ In c cl -> nth c (mrows C) [] = repeat NaN (mcols M)).
Proof.
  intros L. rewrite update_spec by (now rewrite inj_nrows). eexists. split; [reflexivity|]. cbn [mrows nrows]. split.
  - unfold nrows. cbn. now rewrite map_length, seq_length.
  - intros c Hc. rewrite (nth_indep _ [] (class_mean (inj M) cl 0)) by (now rewrite map_length, seq_length).
    rewrite map_nth, seq_nth by auto. cbn [plus]. split; intros H.
    + rewrite class_mean_X by auto. eauto.
    + now apply class_mean_NaN.
Qed.
Lemma update_Fin M cl k C : length cl = nrows M -> nonempty cl k -> update_centroids k M cl = Ok C -> update_centroids k (inj M) cl = Ok (inj C).
Proof.
  intros L NE. rewrite !update_spec by (now rewrite ?inj_nrows). intros [= <-]. f_equal. unfold inj at 2 3. cbn [mrows mcols]. f_equal.
  rewrite map_map. apply map_ext_in. intros c Hc. apply in_seq in Hc. apply class_mean_X, NE. lia.
Qed.

Section Total.
  Context {F : Type} {N : Num F}.
  Lemma closest_total (C : matrix F) w x : mcols C = w -> 0 < nrows C -> exists p, closest C w x = Ok p.
  Proof.
    intros <- K. unfold closest. rewrite Nat.eqb_refl. cbn [rassert]. destruct C as [[|c l] w]; [unfold nrows in K; cbn in K; lia|].
    cbn [mrows map argmin]. eauto.
  Qed.
  Lemma find_closest_total (C M : matrix F) : mcols C = mcols M -> 0 < nrows C -> exists a d, find_closest_centroids C M = Ok (a, d) /\ length a = nrows M.
  Proof.
    intros W K. unfold find_closest_centroids. assert (Q : exists l, rmap (closest C (mcols M)) (mrows M) = Ok l /\ length l = nrows M).
    { unfold nrows at 1. induction (mrows M) as [|x rows IH]; cbn [rmap]; [exists []; auto|]. destruct (closest_total C (mcols M) x W K) as [p ->].
      destruct IH as (l & -> & L). cbn. exists (p :: l). split; auto. cbn. auto. }
    destruct Q as (l & -> & L). cbn [rbind]. exists (map fst l), (map snd l). split; auto. now rewrite map_length.
  Qed.
  Lemma lloyd_total tol k (M : matrix F) : 0 < k -> forall iters cost C, mcols C = mcols M -> nrows C = k -> exists C', lloyd tol k M iters cost C = Ok C'.
  Proof.
    intros K. induction iters as [|n IH]; intros cost C W KC; cbn [lloyd]; [eauto|].
    destruct (find_closest_total C M W) as (a & d & -> & L); [lia|]. cbn [rbind]. rewrite update_spec by auto. cbn [rbind].
    destruct (nltb _ tol); [eauto|]. apply IH; auto. unfold nrows. cbn. now rewrite map_length, seq_length.
  Qed.
End Total.

Lemma lloyd_Fin tol (M : matrix R) k : mwf M -> 0 < k -> forall iters cost C, mwf C -> mcols C = mcols M -> nrows C = k ->
  exists C' l, lloyd (Fin tol) k (inj M) iters (Fin cost) (inj C) = Ok C' /\ length l <= iters /\ lloyd_run M k C l /\
    (C' = inj (last_centres C l) \/ exists a C2, lloyd_step_spec M k a (last_centres C l) C2 /\ ~ nonempty a k).
Proof.
  intros WX K. induction iters as [|iters IH]; intros cost C WC W KC.
  - exists (inj C), []. cbn [lloyd]. repeat split; auto. constructor.
  - destruct (closest_to_step M C k WX WC W KC K) as (a & ds & C1 & E1 & E2 & WC1 & St).
    destruct (St) as (La & _ & K1 & W1 & _).
    destruct (nonempty_dec a k) as [NE|NE].
    + cbn [lloyd]. rewrite find_closest_Fin, E1. cbn [rbind]. rewrite (update_Fin _ _ _ _ La NE E2). cbn [rbind]. rewrite vsum_Fin.
      destruct (nltb _ (Fin tol)).
      * exists (inj C1), [(a, C1)]. repeat split; auto; [cbn; lia|]. econstructor; eauto. constructor.
      * destruct (IH (vsum ds) C1 WC1 W1 K1) as (C' & l & EL & Len & Run & Fin').
        exists C', ((a, C1) :: l). repeat split; auto; [cbn; lia|econstructor; eauto|].
        rewrite last_centres_cons. exact Fin'.
    + destruct (lloyd_total (Fin tol) k (inj M) K (S iters) (Fin cost) (inj C)) as (C' & Q); [exact W|now rewrite inj_nrows|].
      exists C', []. repeat split; auto; [cbn; lia|constructor|]. right. exists a, C1. auto.
Qed.
Theorem train_run_X (tol : R) (m : KMeans X) (M C0 : matrix R) : mwf M -> mwf C0 -> mcols C0 = mcols M -> nrows C0 = km_k m -> 0 < km_k m <= nrows M ->
  exists m' C l, km_train (Fin tol) (Ok (inj C0)) m (inj M) = (m', Ok tt) /\ km_centroids m' = Some C /\
    length l <= km_iters m /\ lloyd_run M (km_k m) C0 l /\
    (C = inj (last_centres C0 l) \/ exists a C2, lloyd_step_spec M (km_k m) a (last_centres C0 l) C2 /\ ~ nonempty a (km_k m)).
Proof.
  intros WX WC W K [P LE]. unfold km_train, init_centroids. rewrite !inj_nrows.
  assert (E : (nrows M <? km_k m) = false) by (apply Nat.ltb_ge; lia). rewrite E. cbn [rbind]. change (mcols (inj C0)) with (mcols C0).
  change (mcols (inj M)) with (mcols M). rewrite inj_nrows, K, W, !Nat.eqb_refl. cbn [negb].
  destruct (lloyd_Fin tol M (km_k m) WX P (km_iters m) 0%R C0 WC W K) as (C & l & EL & Len & Run & Fin').
  change (@nzero X NumXI) with (Fin 0). rewrite EL. exists (km_set m C), C, l. repeat split; auto.
Qed.

(** ** Witnesses in binary64 *)
Definition col1 (l : list Z) : matrix B64 := Mat (map (fun x => [b64_of_Z x]) l) 1.
Definition tol64 : B64 := b64_dec 1 14.
Definition nan_rows (m : KMeans B64) : list bool :=
  match km_centroids m with Some c => map (existsb nnan) (mrows c) | None => [] end.
(** Two equal rows, both chosen by Forgy. *)
Lemma duplicate_nan : exists C m', outcome (forgy 2 2 (col1 [7; 7]%Z)) (Some (Some (Ok C))) /\
  km_train tol64 (Ok C) (km_new 2 10) (col1 [7; 7]%Z) = (m', Ok tt) /\ nan_rows m' = [false; true].
Proof.
  exists (col1 [7; 7]%Z).
  assert (H : (fun p => (nan_rows (fst p), snd p)) (km_train tol64 (Ok (col1 [7; 7]%Z)) (km_new 2 10) (col1 [7; 7]%Z)) = ([false; true], Ok tt)) by (vm_compute; reflexivity).
  destruct (km_train tol64 (Ok (col1 [7; 7]%Z)) (km_new 2 10) (col1 [7; 7]%Z)) as [m' r]. exists m'. cbn [fst snd] in H. split; [|split; congruence].
  unfold forgy. apply outcome_bind. left. exists (Some [0; 1]). split; [|constructor].
  cbn [forgy_loop]. apply (out_gen 2 _ 0); [lia|]. apply (out_gen 2 _ 1); [lia|]. constructor.
Qed.
(** Four different rows, three clusters, a random partition: every row ends in the same cluster. *)
Definition spread : matrix B64 := col1 [0; 2; 98; 100]%Z.
Lemma collapse : exists C m', outcome (random_partition 3 spread) (Some (Ok C)) /\
  km_train tol64 (Ok C) (km_new 3 10) spread = (m', Ok tt) /\ nan_rows m' = [false; true; true] /\
  km_predict m' spread = Ok [0; 0; 0; 0].
Proof.
  destruct (random_partition 3 spread) as [r|hi k|] eqn:E; try discriminate. cbn in E. injection E as <- <-.
  set (C := let? rs := rmap (fun v => let? m := select_rows spread v in Ok (col_mean m)) [[0; 3]; [1]; [2]] in Ok (Mat rs (mcols spread))).
  assert (H : match C with Ok C => (fun p => (nan_rows (fst p), snd p, km_predict (fst p) spread)) (km_train tol64 (Ok C) (km_new 3 10) spread)
     | _ => ([], Panic, Panic) end = ([false; true; true], Ok tt, Ok [0; 0; 0; 0])) by (vm_compute; reflexivity).
  destruct C as [C'|e|] eqn:EC; try discriminate. unfold C in EC. exists C'.
  destruct (km_train tol64 (Ok C') (km_new 3 10) spread) as [m' r]. exists m'. cbn [fst snd] in H. split; [|split; [|split]; congruence].
  apply (out_gen 3 _ 0); [lia|]. rewrite <- EC. constructor.
Qed.
(** k-means++ on two equal rows panics, whatever it draws. *)
Lemma kpp_panics u first : first < 2 -> kpp (col1 [7; 7]%Z) 2 first [u] = Panic.
Proof.
  intros H. destruct first as [|[|first]]; [| |lia].
  all: assert (D : match find_closest_centroids (Mat [[b64_of_Z 7]] 1) (col1 [7; 7]%Z) with Ok (_, d) => forallb nfinite d && negb (nltb nzero (vsum d)) && (0 <? length d) | _ => false end = true) by (vm_compute; reflexivity);
  unfold kpp; cbn [ridx nth_error col1 map mrows rbind kpp_loop mcols];
  change {| mrows := [[b64_of_Z 7]; [b64_of_Z 7]]; mcols := 1 |} with (col1 [7; 7]%Z);
  destruct (find_closest_centroids (Mat [[b64_of_Z 7]] 1) (col1 [7; 7]%Z)) as [[a d]|e|]; try discriminate;
  apply andb_true_iff in D; destruct D as [D D3]; apply andb_true_iff in D; destruct D as [D1 D2];
  cbn [rbind]; rewrite D1; cbn [negb]; unfold sample_discretely; rewrite D3; cbn [rassert];
  apply negb_true_iff in D2; rewrite D2; reflexivity.
Qed.
