(** * DBSCAN asked about the rows it was trained on *)
From Coq Require Import List Arith Lia Bool Reals Lra ZArith.
From Flocq Require Import IEEE754.BinarySingleNaN.
From Verif Require Import Base BaseLemmas Num NumF B64Lemmas NumOrd ArgLemmas Linalg LinalgR Euclid Spec_Calc Model_DBSCAN Model_KNN Spec_KNN Spec_B64
  Spec_DBSCAN Proof_TreeBall Proof_KNN2 Proof_DBSCAN Proof_DBSCANEx Proof_DBSCAN2 Proof_KernelB64.
Import ListNotations.

Lemma Forall2_at {A B} (Q : A -> B -> Prop) a b da db : Forall2 Q a b -> forall i, i < length a -> Q (nth i a da) (nth i b db).
Proof. induction 1; intros [|i] Hi; cbn in *; try lia; auto. apply IHForall2. lia. Qed.

Lemma own_row_len {F} (m : matrix F) i : mwf m -> i < nrows m -> length (nth i (mrows m) []) = mcols m.
Proof. unfold mwf. rewrite Forall_forall. intros W Hi. apply W, nth_In, Hi. Qed.

Section Own.
  Context {F : Type} {N : Num F} {O : NumOrd F}.
  Context (m m1 : DBSCAN F) (data : matrix F) (fuel : nat).
  Notation n := (nrows data).
  Notation row i := (nth i (mrows data) []).
  Hypothesis FU : n <= fuel.
  Hypothesis T : dbscan_train fuel m data = Some m1.
  Hypothesis P : db_predictive m = true.
  Hypothesis NE : 0 < n.
  Hypothesis sym : forall a b : list F, edist a b = edist b a.
  Hypothesis NN : forall i j, i < n -> j < n -> nnan (edist (row i) (row j)) = false.
  Hypothesis Zero : forall i, i < n -> edist (row i) (row i) = nzero.
  Hypothesis Eps : nltb nzero (db_eps m) = true.
  Hypothesis Inj : forall i j, i < n -> j < n -> nltb nzero (edist (row i) (row j)) = false -> row i = row j.

  Lemma own_rows : exists lab, db_clusters m1 = Some lab /\ length lab = n /\ dbscan_predict m1 data = Ok lab.
  Proof.
    destruct (clustering_spec (db_eps m) (db_min_points m) data) with (fuel := fuel) as (w & k & E & D & _); auto.
    { intros i j _ _. unfold nearb. now rewrite sym. }
    unfold dbscan_train in T. rewrite E, P in T. injection T as T1. set (lab := w_clusters w) in *.
    assert (C1 : db_clusters m1 = Some lab) by (now rewrite <- T1).
    exists lab. split; [exact C1|]. split; [apply D|].
    destruct (predict_spec m1 data lab data) as (out & E2 & F2); try (rewrite <- T1; reflexivity); auto.
    - apply D.
    - intros r i Hr Hi. destruct (In_nth _ _ [] Hr) as (j & Hj & <-). apply NN; auto.
    - rewrite E2. f_equal. assert (Lo : length out = n) by (clear - F2; unfold nrows; induction F2; cbn; auto).
      assert (Ee : db_eps m1 = db_eps m) by (now rewrite <- T1). rewrite Ee in F2.
      apply (nth_ext _ _ None None); [rewrite Lo; symmetry; apply D|]. rewrite Lo. intros i Hi.
      assert (Q : nearest_label n (fun j => edist (row i) (row j)) (db_eps m) lab (nth i out None)).
      { exact (Forall2_at _ _ _ [] None F2 i Hi). }
      destruct Q as (c & Hc & Mn & _ & ->).
      assert (Er : row i = row c). { apply Inj; auto. rewrite <- (Zero i Hi). apply Mn, Hi. }
      rewrite <- Er, Zero, Eps by auto.
      destruct D as (Ll & D1 & D2 & _). fold lab in Ll, D1, D2.
      assert (Nb : forall j, near (db_eps m) data c j <-> near (db_eps m) data i j) by (intros j; unfold near, nearb; now rewrite Er).
      assert (CC : core n (near (db_eps m) data) (db_min_points m) c <-> core n (near (db_eps m) data) (db_min_points m) i).
      { unfold core. split; intros [_ (Q & Q1 & Q2 & Q3)]; (split; [assumption|]); exists Q; split; auto; split; auto; intros j Hj; destruct (Q3 j Hj) as [Q4 Q5]; split; auto; now apply Nb. }
      destruct (nth c lab None) as [x|] eqn:Ec.
      + assert (Kc : core n (near (db_eps m) data) (db_min_points m) c) by (apply (D1 c Hc); rewrite Ec; discriminate).
        rewrite <- Ec. apply D2; auto; [now apply CC|]. apply Relation_Operators.rt_step. split; [exact Kc|]. split; [now apply CC|].
        unfold near, nearb. rewrite <- Er. rewrite Zero by auto. exact Eps.
      + symmetry. destruct (nth i lab None) as [x|] eqn:Ei; auto. exfalso.
        assert (Ki : core n (near (db_eps m) data) (db_min_points m) i) by (apply (D1 i Hi); rewrite Ei; discriminate).
        apply CC in Ki. apply (D1 c Hc) in Ki. auto.
  Qed.
End Own.

Theorem own_rows_R (m m1 : DBSCAN R) data fuel : mwf data -> 0 < nrows data -> nrows data <= fuel -> (0 < db_eps m)%R -> db_predictive m = true ->
  dbscan_train fuel m data = Some m1 -> exists lab, db_clusters m1 = Some lab /\ length lab = nrows data /\ dbscan_predict m1 data = Ok lab.
Proof.
  intros W NE FU Ep P T. apply (own_rows m m1 data fuel); auto.
  - apply edist_sym_R.
  - intros i Hi. rewrite edist_dist. apply dist_self_R.
  - now apply nltb_R.
  - intros i j Hi Hj Q. apply nltb_R_false in Q. rewrite edist_dist, (dist_euclid (mcols data)) in Q by now apply own_row_len.
    apply (euclid_0 (mcols data)); auto; now apply own_row_len.
Qed.
Theorem own_rows_B64 (m m1 : DBSCAN B64) data fuel : 0 < nrows data -> nrows data <= fuel -> nltb nzero (db_eps m) = true -> db_predictive m = true ->
  Forall finite_vec (mrows data) ->
  (forall i j, i < nrows data -> j < nrows data -> nnan (edist (nth i (mrows data) []) (nth j (mrows data) [])) = false) ->
  (forall i j, i < nrows data -> j < nrows data -> nltb nzero (edist (nth i (mrows data) []) (nth j (mrows data) [])) = false ->
     nth i (mrows data) [] = nth j (mrows data) []) ->
  dbscan_train fuel m data = Some m1 -> exists lab, db_clusters m1 = Some lab /\ length lab = nrows data /\ dbscan_predict m1 data = Ok lab.
Proof.
  intros NE FU Ep P Fi NN Inj T. apply (own_rows m m1 data fuel); auto.
  - apply edist_sym_B64.
  - intros i Hi. unfold edist. rewrite sqdist_self; [reflexivity|]. rewrite Forall_forall in Fi. apply Fi. now apply nth_In.
Qed.

(** Rows 0, 1e-162 and -1.5e-162, whose squared differences are rounded to 0 or to the smallest number. *)
Definition tinyv (q : Z) (e : Z) : B64 := binary_normalize 53 1024 prec64 emax64 mode_NE q e false.
Definition close_data : matrix B64 := Mat [[tinyv 0 0]; [tinyv 1 (-538)]; [tinyv (-5) (-540)]] 1.
Definition close_model : DBSCAN B64 :=
  {| db_eps := tinyv 1 (-538); db_min_points := 3; db_clusters := None; db_predictive := true; db_cluster_data := None |}.
Lemma close_rows : exists m1, dbscan_train 3 close_model close_data = Some m1 /\ nltb nzero (db_eps close_model) = true /\
  Forall finite_vec (mrows close_data) /\ db_clusters m1 = Some [Some 0; None; None] /\ dbscan_predict m1 close_data = Ok [Some 0; Some 0; Some 0].
Proof.
  assert (Q : option_map (fun m => (db_clusters m, dbscan_predict m close_data)) (dbscan_train 3 close_model close_data) =
              Some (Some [Some 0; None; None], Ok [Some 0; Some 0; Some 0])) by (vm_compute; reflexivity).
  assert (E : nltb nzero (db_eps close_model) = true) by (vm_compute; reflexivity).
  assert (G : forallb (forallb is_finite) (mrows close_data) = true) by (vm_compute; reflexivity).
  destruct (dbscan_train 3 close_model close_data) as [m1|]; [|discriminate]. exists m1. split; auto. split; auto. cbn [option_map] in Q. split; [|split; congruence].
  rewrite forallb_forall in G. apply Forall_forall. intros r Hr. apply Forall_forall. intros x Hx. specialize (G r Hr). rewrite forallb_forall in G. now apply G.
Qed.
Definition own_data : matrix B64 := zmat [0; 5; 0; 9]%Z.
Definition own_model : DBSCAN B64 := {| db_eps := b64_of_Z 1; db_min_points := 2; db_clusters := None; db_predictive := true; db_cluster_data := None |}.
Lemma own_ex : exists m1, dbscan_train (nrows own_data) own_model own_data = Some m1 /\ 0 < nrows own_data /\ nltb nzero (db_eps own_model) = true /\ db_predictive own_model = true /\
  Forall finite_vec (mrows own_data) /\
  (forall i j, i < nrows own_data -> j < nrows own_data -> nnan (edist (nth i (mrows own_data) []) (nth j (mrows own_data) [])) = false) /\
  (forall i j, i < nrows own_data -> j < nrows own_data -> nltb nzero (edist (nth i (mrows own_data) []) (nth j (mrows own_data) [])) = false ->
     nth i (mrows own_data) [] = nth j (mrows own_data) []) /\
  db_clusters m1 = Some [Some 0; None; Some 0; None].
Proof.
  assert (Q : option_map db_clusters (dbscan_train (nrows own_data) own_model own_data) = Some (Some [Some 0; None; Some 0; None])) by (vm_compute; reflexivity).
  assert (E : nltb nzero (db_eps own_model) = true) by (vm_compute; reflexivity).
  assert (G : forallb (forallb is_finite) (mrows own_data) = true) by (vm_compute; reflexivity).
  destruct (dbscan_train (nrows own_data) own_model own_data) as [m1|]; [|discriminate]. exists m1. split; auto. cbn [option_map] in Q.
  split; [cbn; lia|]. split; [exact E|]. split; [reflexivity|]. split.
  { rewrite forallb_forall in G. apply Forall_forall. intros r Hr. apply Forall_forall. intros x Hx. specialize (G r Hr). rewrite forallb_forall in G. now apply G. }
  assert (V : forall i j, i < 4 -> j < 4 -> nnan (edist (nth i (mrows own_data) []) (nth j (mrows own_data) [])) = false /\
     (nltb nzero (edist (nth i (mrows own_data) []) (nth j (mrows own_data) [])) = true \/ nth i [0; 5; 0; 9]%Z 0%Z = nth j [0; 5; 0; 9]%Z 0%Z)).
  { intros i j Hi Hj. destruct i as [|[|[|[|i]]]]; try lia; destruct j as [|[|[|[|j]]]]; try lia;
      (split; [vm_compute; reflexivity|]); (right; reflexivity) || (left; vm_compute; reflexivity). }
  split; [intros i j Hi Hj; apply V; auto|]. split; [|congruence]. intros i j Hi Hj Hz. destruct (V i j Hi Hj) as [_ [V1|V1]]; [congruence|].
  unfold own_data, zmat. cbn [mrows]. rewrite !(nth_map (fun x => [b64_of_Z x]) _ _ _ 0%Z) by (cbn; cbn in Hi, Hj; lia). now rewrite V1.
Qed.
Lemma own_ex_R : let data : matrix R := Mat [[0%R]; [5%R]; [0%R]] 1 in mwf data /\ 0 < nrows data /\
  exists m1, dbscan_train (nrows data) {| db_eps := 1%R; db_min_points := 2; db_clusters := None; db_predictive := true; db_cluster_data := None |} data = Some m1.
Proof.
  cbv zeta. split; [repeat constructor|]. split; [cbn; lia|].
  destruct (clusters_real 1 2 (Mat [[0%R]; [5%R]; [0%R]] 1)) as (w & k & E & _); [repeat constructor|]. unfold dbscan_train. cbn [db_eps db_min_points]. rewrite E. eauto.
Qed.
