(** * DBSCAN: distances, prediction, histories, witnesses *)
From Coq Require Import List Arith Lia Bool Relations Permutation Reals Lra ZArith.
From Flocq Require Import Core BinarySingleNaN.
From Verif Require Import Base BaseLemmas Num NumF B64Lemmas NumOrd ArgLemmas Linalg LinalgR Euclid Spec_Calc Model_DBSCAN Model_KNN Spec_KNN
  Spec_DBSCAN Proof_KNearest Proof_Tree Proof_TreeKD Proof_TreeBall Proof_DBSCAN.
Import ListNotations.

Lemma edist_dist {F} {N : Num F} (a b : list F) : edist a b = dist a b.
Proof.
  unfold edist, dist, dot. do 2 f_equal. unfold vsub. revert b. induction a as [|x a IH]; intros [|y b]; cbn; auto. now rewrite IH.
Qed.

(** ** Symmetry of the distance *)
Lemma Bmult_opp (r : B64) : nmul (Bopp r) (Bopp r) = nmul r r.
Proof.
  destruct r as [s|s| |s m e b]; [destruct s; reflexivity|destruct s; reflexivity|reflexivity|].
  apply B2SF_inj. unfold nmul, NumB64. unfold Bmult, Bopp. rewrite !B2SF_SF2B. now destruct s.
Qed.
Lemma sq_phi (r r' : B64) : is_nan r = false -> is_nan r' = false -> phi r' = (- phi r)%R -> nmul r' r' = nmul r r.
Proof.
  intros A B H. generalize top64_pos; intro T. 
  assert (FB : forall x : B64, is_finite x = true -> (- top64 < phi x < top64)%R).
  { intros x Hx. rewrite phi_finite by auto. pose proof (abs_B2R_lt_emax 53 1024 x) as Q. fold top64 in Q. apply Rabs_def2 in Q. lra. }
  destruct (is_finite r) eqn:Fr.
  - assert (Fr' : is_finite r' = true).
    { destruct r' as [s|s| |s m e b]; auto; try discriminate. pose proof (FB r Fr). cbn [phi] in H. destruct s; lra. }
    rewrite !phi_finite in H by auto. destruct (Req_dec (B2R r) 0) as [Z|Z].
    + assert (ZZ : forall x : B64, is_finite x = true -> B2R x = 0%R -> nmul x x = B754_zero false).
      { intros x Hx E. destruct x as [s|s| |s m e b]; try discriminate.
        - cbn. now destruct s.
        - exfalso. cbn in E. apply eq_0_F2R in E. destruct s; discriminate. }
      rewrite !ZZ; auto. rewrite H, Z. apply Ropp_0.
    + assert (r' = Bopp r) as ->.
      { apply B2R_Bsign_inj; auto.
        - now rewrite is_finite_Bopp.
        - now rewrite B2R_Bopp.
        - assert (NS : forall x : B64, is_finite x = true -> B2R x <> 0%R -> Bsign x = Rlt_bool (B2R x) 0).
          { intros x Hx Nx. destruct (Bsign x) eqn:E.
            - symmetry. apply Rlt_bool_true. pose proof (Bsign_neg x Hx E). lra.
            - symmetry. apply Rlt_bool_false. now apply Bsign_pos. }
          rewrite (NS r' Fr') by lra. rewrite (NS (Bopp r)); rewrite ?is_finite_Bopp, ?B2R_Bopp; auto; [|lra]. now rewrite H. }
      apply Bmult_opp.
  - destruct r as [s|s| |s m e b]; try discriminate.
    assert (Fr' : is_finite r' = false). { destruct (is_finite r') eqn:E; auto. pose proof (FB r' E). cbn [phi] in H. destruct s; lra. }
    destruct r' as [s'|s'| |s' m e b]; try discriminate. cbn. now destruct s, s'.
Qed.
Lemma sq_sub_sym (x y : B64) : nmul (nsub x y) (nsub x y) = nmul (nsub y x) (nsub y x).
Proof.
  destruct (is_finite x) eqn:Fx.
  - destruct (is_finite y) eqn:Fy.
    + destruct (sub_rounds x y Fx Fy) as [A1 A2]. destruct (sub_rounds y x Fy Fx) as [B1 B2]. apply sq_phi; auto.
      rewrite A2, B2, <- fr_opp. f_equal. lra.
    + destruct y as [s|s| |s m e b]; try discriminate; destruct x as [s'|s'| |s' m e b]; try discriminate; cbn; try reflexivity; now destruct s.
  - destruct x as [s|s| |s m e b]; try discriminate; destruct y as [s'|s'| |s' m e b]; cbn; try reflexivity; try (destruct s, s'; reflexivity); try (destruct s; reflexivity).
Qed.
Lemma edist_sym_B64 (a b : list B64) : edist a b = edist b a.
Proof.
  rewrite !edist_dist. unfold dist. do 2 f_equal. revert b. induction a as [|x a IH]; intros [|y b]; auto. cbn [map2]. f_equal; auto. apply sq_sub_sym.
Qed.
Lemma edist_sym_R (a b : list R) : edist a b = edist b a.
Proof.
  rewrite !edist_dist. unfold dist. do 2 f_equal. revert b. induction a as [|x a IH]; intros [|y b]; auto. cbn [map2]. f_equal; auto. cbn. ring.
Qed.

(** ** Clustering *)
Lemma core_ext n near near' mp : (forall i j, i < n -> j < n -> (near i j <-> near' i j)) -> forall i, core n near mp i <-> core n near' mp i.
Proof.
  intros H i. split; intros (Hi & S & A & B & C); split; auto; exists S; split; auto; split; auto; intros j Hj; destruct (C j Hj) as [C1 C2]; split; auto; now apply (H i j).
Qed.
Lemma chain_ext n near near' mp : (forall i j, i < n -> j < n -> (near i j <-> near' i j)) -> forall i j, chain n near mp i j -> chain n near' mp i j.
Proof.
  intros H i j C. induction C as [a b (A & B & C)| |a b c _ IH1 _ IH2].
  - apply rt_step. split; [now apply (core_ext n near near' mp H)|]. split; [now apply (core_ext n near near' mp H)|].
    apply H; auto; [apply A|apply B].
  - apply rt_refl.
  - eapply rt_trans; eauto.
Qed.
Lemma density_ext n near near' mp lab : (forall i j, i < n -> j < n -> (near i j <-> near' i j)) ->
  density_labels n near mp lab -> density_labels n near' mp lab.
Proof.
  intros H (A & B & C & D). assert (H' : forall i j, i < n -> j < n -> (near' i j <-> near i j)) by (intros; symmetry; auto).
  split; auto. split; [|split; auto].
  - intros i Hi. rewrite B by auto. now apply core_ext.
  - intros i j Hi Hj. rewrite C by (now apply (core_ext n near near' mp H)). split; apply chain_ext; auto.
Qed.

Lemma near_euclid (data : matrix R) eps i j : mwf data -> i < nrows data -> j < nrows data ->
  (near eps data i j <-> near_R data eps i j).
Proof.
  intros W Hi Hj. unfold near, nearb, near_R. rewrite edist_sym_R, edist_dist, (dist_euclid (mcols data)) by (now apply row_length).
  apply nltb_R.
Qed.

Theorem clusters_real (eps : R) mp (data : matrix R) : mwf data ->
  exists w k, clustering eps mp data (nrows data) = Some (w, k) /\
    density_labels (nrows data) (near_R data eps) mp (w_clusters w) /\
    (forall i c, nth i (w_clusters w) None = Some c -> c < k) /\ (forall c, c < k -> exists i, nth i (w_clusters w) None = Some c).
Proof.
  intros W. destruct (clustering_spec eps mp data) with (fuel := nrows data) as (w & k & E & D & _ & K1 & K2); auto.
  - intros i j _ _. unfold nearb. now rewrite edist_sym_R.
  - exists w, k. split; auto. split; auto. eapply density_ext; [|exact D]. intros. now apply near_euclid.
Qed.
Theorem clusters_b64 (eps : B64) mp (data : matrix B64) :
  exists w k, clustering eps mp data (nrows data) = Some (w, k) /\
    density_labels (nrows data) (fun i j => nltb (edist (nth i (mrows data) []) (nth j (mrows data) [])) eps = true) mp (w_clusters w) /\
    (forall i c, nth i (w_clusters w) None = Some c -> c < k) /\ (forall c, c < k -> exists i, nth i (w_clusters w) None = Some c).
Proof.
  destruct (clustering_spec eps mp data) with (fuel := nrows data) as (w & k & E & D & _ & K1 & K2); auto.
  - intros i j _ _. unfold nearb. now rewrite edist_sym_B64.
  - exists w, k. split; auto. split; auto. eapply density_ext; [|exact D]. intros. unfold near, nearb. now rewrite edist_sym_B64.
Qed.
Theorem visits_each_once (eps : B64) mp (data : matrix B64) fuel : nrows data <= fuel ->
  exists w k, clustering eps mp data fuel = Some (w, k) /\ Permutation (w_queries w) (seq 0 (nrows data)).
Proof.
  intros FU. destruct (clustering_spec eps mp data) with (fuel := fuel) as (w & k & E & _ & P & _); eauto.
  intros i j _ _. unfold nearb. now rewrite edist_sym_B64.
Qed.

Theorem border_unlabelled (eps : B64) mp (data : matrix B64) w k fuel i : nrows data <= fuel ->
  clustering eps mp data fuel = Some (w, k) -> i < nrows data ->
  ~ core (nrows data) (fun i j => nltb (edist (nth i (mrows data) []) (nth j (mrows data) [])) eps = true) mp i ->
  nth i (w_clusters w) None = None.
Proof.
  intros FU E Hi NC. destruct (clustering_spec eps mp data) with (fuel := fuel) as (w' & k' & E' & D & _); auto.
  - intros a b _ _. unfold nearb. now rewrite edist_sym_B64.
  - assert (w' = w) by congruence. subst w'.
    apply (density_ext _ _ (fun i j => nltb (edist (nth i (mrows data) []) (nth j (mrows data) [])) eps = true)) in D.
    2:{ intros. unfold near, nearb. now rewrite edist_sym_B64. }
    destruct D as (_ & D & _). specialize (D i Hi). destruct (nth i (w_clusters w) None); auto. exfalso. apply NC, D. discriminate.
Qed.

(** ** Prediction *)
Section Predict.
  Context {F : Type} {N : Num F} {O : NumOrd F}.
  Lemma predict_spec (m : DBSCAN F) data lab test : db_predictive m = true -> db_cluster_data m = Some data -> db_clusters m = Some lab ->
    0 < nrows data -> length lab = nrows data ->
    (forall row i, In row (mrows test) -> i < nrows data -> nnan (edist row (nth i (mrows data) [])) = false) ->
    exists out, dbscan_predict m test = Ok out /\
      Forall2 (fun row l => nearest_label (nrows data) (fun i => edist row (nth i (mrows data) [])) (db_eps m) lab l) (mrows test) out.
  Proof.
    intros P D L NE LL NN. unfold dbscan_predict. rewrite P, D, L.
    assert (Q : forall rows, (forall r, In r rows -> In r (mrows test)) -> exists out, rmap (fun input_point =>
         let? closest := argmin (map (fun cp => edist input_point cp) (mrows data)) in
         if nltb (snd closest) (db_eps m) then ridx lab (fst closest) else Ok None) rows = Ok out /\
       Forall2 (fun row l => nearest_label (nrows data) (fun i => edist row (nth i (mrows data) [])) (db_eps m) lab l) rows out).
    { induction rows as [|r rows IH]; intros IN; cbn [rmap]; [exists []; auto|].
      destruct IH as (out & E & H); [intros; apply IN; now right|]. rewrite E.
      set (ds := map (fun cp => edist r cp) (mrows data)).
      assert (Ld : length ds = nrows data) by (unfold ds; now rewrite map_length).
      assert (Nd : forall j, j < nrows data -> nth j ds nzero = edist r (nth j (mrows data) [])).
      { intros j Hj. unfold ds. rewrite (nth_indep _ nzero (edist r [])) by (rewrite map_length; exact Hj). now rewrite map_nth. }
      destruct (argmin_spec ds) as (k & v & Ea & Hk & Nk & Mn & Fi).
      - intros E0. rewrite E0 in Ld. cbn in Ld. lia.
      - intros x Hx. destruct (In_nth _ _ nzero Hx) as (j & Hj & <-). rewrite Nd by lia. apply NN; [apply IN; now left|lia].
      - rewrite Ea. cbn [rbind fst snd]. rewrite Ld in *. rewrite Nd in Nk by auto.
        assert (NL : nearest_label (nrows data) (fun i => edist r (nth i (mrows data) [])) (db_eps m) lab (if nltb v (db_eps m) then nth k lab None else None)).
        { exists k. split; auto. rewrite Nk. split; [|split; auto].
          - intros j Hj. rewrite <- Nd by auto. now apply Mn.
          - intros j Hj. rewrite <- Nd by lia. now apply Fi. }
        destruct (nltb v (db_eps m)).
        + rewrite (ridx_nth _ _ None) by lia. cbn [rbind]. exists (nth k lab None :: out). auto.
        + cbn [rbind]. exists (None :: out). auto. }
    apply Q. auto.
  Qed.
End Predict.

Lemma run_predictive {F} {N : Num F} bs : forall (m : DBSCAN F), exists m',
  db_run m (map OpPredictive bs) = Some m' /\ db_eps m' = db_eps m /\ db_clusters m' = db_clusters m /\ db_cluster_data m' = db_cluster_data m /\
  db_predictive m' = last bs (db_predictive m).
Proof.
  induction bs as [|b bs IH]; intros m; [exists m; auto|]. unfold db_run. cbn [map fold_left db_step].
  destruct (IH (set_predictive m b)) as (m' & A & B & C & D & E). exists m'. split; [exact A|]. rewrite B, C, D, E.
  repeat split. clear. destruct bs as [|c bs]; [reflexivity|]. cbn [db_predictive set_predictive].
  assert (Q : forall (l : list bool) x y z, last (x :: l) y = last (x :: l) z) by (induction l; intros; auto; cbn [last] in *; auto).
  change (last (c :: bs) b = last (c :: bs) (db_predictive m)). apply Q.
Qed.
Lemma run_app {F} {N : Num F} (m : DBSCAN F) a b : db_run m (a ++ b) = fold_left db_step b (db_run m a).
Proof. unfold db_run. apply fold_left_app. Qed.

Theorem predict_history (m0 m1 : DBSCAN B64) (h : list (db_op B64)) data bs test :
  db_run m0 h = Some m1 -> db_predictive m1 = true -> last bs true = true -> 0 < nrows data ->
  (forall row i, In row (mrows test) -> i < nrows data -> nnan (edist row (nth i (mrows data) [])) = false) ->
  exists m lab out, db_run m0 (h ++ OpTrain data :: map OpPredictive bs) = Some m /\ db_clusters m = Some lab /\
    density_labels (nrows data) (fun i j => nltb (edist (nth i (mrows data) []) (nth j (mrows data) [])) (db_eps m1) = true) (db_min_points m1) lab /\
    dbscan_predict m test = Ok out /\
    Forall2 (fun row l => nearest_label (nrows data) (fun i => edist row (nth i (mrows data) [])) (db_eps m1) lab l) (mrows test) out.
Proof.
  intros H P L NE NN. rewrite run_app, H. cbn [fold_left db_step].
  destruct (clusters_b64 (db_eps m1) (db_min_points m1) data) as (w & k & E & D & _).
  unfold dbscan_train. rewrite E, P.
  match goal with |- context [Some ?r] => match r with {| db_eps := _ |} => set (m2 := r) end end.
  destruct (run_predictive bs m2) as (m & A & B1 & B2 & B3 & B4). exists m, (w_clusters w).
  assert (P' : db_predictive m = true) by (rewrite B4; exact L).
  destruct (predict_spec m data (w_clusters w) test) as (out & E2 & F2); auto.
  - apply D.
  - exists out. split; [exact A|]. split; [exact B2|]. split; [exact D|]. split; [exact E2|]. rewrite B1 in F2. exact F2.
Qed.
Theorem predict_errors {F} {N : Num F} (m : DBSCAN F) test :
  (db_predictive m = false -> dbscan_predict m test = Err InvalidState) /\
  (db_predictive m = true -> db_clusters m = None \/ db_cluster_data m = None -> dbscan_predict m test = Err UntrainedModel).
Proof.
  unfold dbscan_predict. split; intros ->; auto. intros [->| ->]; auto. now destruct (db_cluster_data m).
Qed.

(** ** Witnesses *)
Definition zmat (l : list Z) : matrix B64 := Mat (map (fun x => [b64_of_Z x]) l) 1.
(** Rows 0, 2, 4; eps 3; 3 rows needed: only row 1 is a core row. *)
Definition border_data : matrix B64 := zmat [0; 2; 4]%Z.
Lemma border_witness : exists w k, clustering (b64_of_Z 3) 3 border_data 3 = Some (w, k) /\
  w_clusters w = [None; Some 0; None] /\
  nltb (edist (nth 0 (mrows border_data) []) (nth 1 (mrows border_data) [])) (b64_of_Z 3) = true.
Proof.
  assert (H : option_map (fun p => w_clusters (fst p)) (clustering (b64_of_Z 3) 3 border_data 3) = Some [None; Some 0; None]) by (vm_compute; reflexivity).
  destruct (clustering (b64_of_Z 3) 3 border_data 3) as [[w k]|]; [|discriminate]. exists w, k. split; auto. split.
  - cbn in H. congruence.
  - vm_compute. reflexivity.
Qed.

Definition model0 : DBSCAN B64 := {| db_eps := b64_of_Z 1; db_min_points := 1; db_clusters := None; db_predictive := false; db_cluster_data := None |}.
Lemma model0_new : dbscan_new (b64_of_Z 1) 1 = Ok model0.
Proof. unfold dbscan_new. assert (H : nltb nzero (b64_of_Z 1) = true) by (vm_compute; reflexivity). now rewrite H. Qed.
Definition stale (b : list Z) : list (db_op B64) :=
  [OpPredictive true; OpTrain (zmat [0; 10]%Z); OpPredictive false; OpTrain (zmat b); OpPredictive true].
Definition ask (h : list (db_op B64)) (test : matrix B64) : res (list (option nat)) :=
  match db_run model0 h with Some m => dbscan_predict m test | None => Panic end.
Lemma stale_label : exists m, db_run model0 (stale [50; 60]%Z) = Some m /\ dbscan_predict m (zmat [0]%Z) = Ok [Some 0] /\
  nltb (edist [b64_of_Z 0] [b64_of_Z 50]) (db_eps m) = false /\ nltb (edist [b64_of_Z 0] [b64_of_Z 60]) (db_eps m) = false.
Proof.
  assert (H : ask (stale [50; 60]%Z) (zmat [0]%Z) = Ok [Some 0]) by (vm_compute; reflexivity).
  assert (H2 : option_map (fun m => (nltb (edist [b64_of_Z 0] [b64_of_Z 50]) (db_eps m), nltb (edist [b64_of_Z 0] [b64_of_Z 60]) (db_eps m)))
     (db_run model0 (stale [50; 60]%Z)) = Some (false, false)) by (vm_compute; reflexivity).
  unfold ask in H. destruct (db_run model0 (stale [50; 60]%Z)) as [m|]; [|discriminate]. exists m. split; auto. split; auto.
  cbn [option_map] in H2. split; congruence.
Qed.
Lemma stale_panic : exists m, db_run model0 (stale [50]%Z) = Some m /\ dbscan_predict m (zmat [10]%Z) = Panic.
Proof.
  assert (Q : option_map (fun m => dbscan_predict m (zmat [10]%Z)) (db_run model0 (stale [50]%Z)) = Some Panic) by (vm_compute; reflexivity).
  destruct (db_run model0 (stale [50]%Z)) as [m|]; [|discriminate]. exists m. split; auto. cbn in Q. congruence.
Qed.
Lemma late_predictive : exists m, db_run model0 [OpTrain (zmat [0; 10]%Z); OpPredictive true] = Some m /\ dbscan_predict m (zmat [0]%Z) = Err UntrainedModel.
Proof.
  assert (Q : option_map (fun m => dbscan_predict m (zmat [0]%Z)) (db_run model0 [OpTrain (zmat [0; 10]%Z); OpPredictive true]) = Some (Err UntrainedModel)) by (vm_compute; reflexivity).
  destruct (db_run model0 [OpTrain (zmat [0; 10]%Z); OpPredictive true]) as [m|]; [|discriminate]. exists m. split; auto. cbn in Q. congruence.
Qed.
Lemma history_ex : exists m1, db_run model0 [OpTrain (zmat [7]%Z); OpPredictive true] = Some m1 /\ db_predictive m1 = true /\
  last [false; true] true = true /\ 0 < nrows (zmat [0; 10]%Z) /\
  forall row i, In row (mrows (zmat [3]%Z)) -> i < nrows (zmat [0; 10]%Z) -> nnan (edist row (nth i (mrows (zmat [0; 10]%Z)) [])) = false.
Proof.
  assert (Q : option_map db_predictive (db_run model0 [OpTrain (zmat [7]%Z); OpPredictive true]) = Some true) by (vm_compute; reflexivity).
  destruct (db_run model0 [OpTrain (zmat [7]%Z); OpPredictive true]) as [m|]; [|discriminate]. exists m. split; auto. split; [cbn in Q; congruence|].
  split; auto. split; [cbn; lia|]. intros row i [<-|[]] Hi. unfold nrows in Hi. cbn in Hi. destruct i as [|[|i]]; [| |lia]; vm_compute; reflexivity.
Qed.
(** Two clusters, one noise row. *)
Lemma clusters_ex : exists w k, clustering (b64_of_Z 3) 2 (zmat [0; 2; 30; 20; 21]%Z) 5 = Some (w, k) /\
  w_clusters w = [Some 0; Some 0; None; Some 1; Some 1] /\ k = 2.
Proof.
  assert (H : option_map (fun p => (w_clusters (fst p), snd p)) (clustering (b64_of_Z 3) 2 (zmat [0; 2; 30; 20; 21]%Z) 5) = Some ([Some 0; Some 0; None; Some 1; Some 1], 2)) by (vm_compute; reflexivity).
  destruct (clustering (b64_of_Z 3) 2 (zmat [0; 2; 30; 20; 21]%Z) 5) as [[w k]|]; [|discriminate]. exists w, k. cbn in H. split; auto. split; congruence.
Qed.
