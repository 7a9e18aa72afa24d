From Coq Require Import List Arith Bool Reals ZArith Lia Lra.
From Flocq Require Import Core BinarySingleNaN.
From Verif Require Import Base Num NumFn NumF B64Lemmas Linalg Spec_B64 Proof_ScoreB64 Model_Optim Model_DBSCAN Model_GMM Spec_New.
Import ListNotations.
Local Open Scope R_scope.

Lemma nan0 : is_nan (nzero : B64) = false. Proof. vm_compute. reflexivity. Qed.
Lemma fin0 : is_finite (nzero : B64) = true. Proof. vm_compute. reflexivity. Qed.
Lemma phi0 : phi (nzero : B64) = 0. Proof. reflexivity. Qed.
Lemma pos_spec (x : B64) : nltb (nzero : B64) x = true <-> positive64 x.
Proof.
  unfold positive64. destruct x as [s|[|]| |s m e b].
  - change (nltb (nzero : B64) (B754_zero s)) with false. cbn. split; [discriminate|]. intros [[_ H]|H]; [lra|discriminate].
  - change (nltb (nzero : B64) (B754_infinity true)) with false. cbn. split; [discriminate|]. intros [[H _]|H]; discriminate.
  - split; auto.
  - change (nltb (nzero : B64) B754_nan) with false. split; [discriminate|]. intros [[H _]|H]; discriminate.
  - set (x := B754_finite s m e b : B64). assert (F : is_finite x = true) by reflexivity. change (nltb (nzero : B64) x) with (b64_ltb nzero x).
    rewrite (phi_ltb (nzero : B64) x nan0 (finite_nan x F)), phi0, (phi_finite x F). split; [auto|]. intros [[_ H]|H]; [exact H|discriminate H].
Qed.
Lemma neg_spec (x : B64) : nltb x (nzero : B64) = true <-> negative64 x.
Proof.
  unfold negative64. destruct x as [s|[|]| |s m e b].
  - change (nltb (B754_zero s) (nzero : B64)) with false. cbn. split; [discriminate|]. intros [[_ H]|H]; [lra|discriminate].
  - split; auto.
  - change (nltb (B754_infinity false) (nzero : B64)) with false. cbn. split; [discriminate|]. intros [[H _]|H]; discriminate.
  - change (nltb B754_nan (nzero : B64)) with false. split; [discriminate|]. intros [[H _]|H]; discriminate.
  - set (x := B754_finite s m e b : B64). assert (F : is_finite x = true) by reflexivity. change (nltb x (nzero : B64)) with (b64_ltb x nzero).
    rewrite (phi_ltb x (nzero : B64) (finite_nan x F) nan0), phi0, (phi_finite x F). split; [auto|]. intros [[_ H]|H]; [exact H|discriminate H].
Qed.
Lemma nonneg_spec (x : B64) : nleb (nzero : B64) x = true <-> nonneg64 x.
Proof.
  unfold nonneg64. destruct x as [s|[|]| |s m e b].
  - split; [|reflexivity]. intros _. left. split; [reflexivity|cbn; lra].
  - change (nleb (nzero : B64) (B754_infinity true)) with false. cbn. split; [discriminate|]. intros [[H _]|H]; discriminate.
  - split; auto.
  - change (nleb (nzero : B64) B754_nan) with false. split; [discriminate|]. intros [[H _]|H]; discriminate.
  - set (x := B754_finite s m e b : B64). assert (F : is_finite x = true) by reflexivity. change (nleb (nzero : B64) x) with (Bleb (nzero : B64) x).
    rewrite (Bleb_correct 53 1024 (nzero : B64) x fin0 F). change (B2R (nzero : B64)) with 0. destruct (Rle_bool_spec 0 (B2R x)) as [L|L]; split; auto; try discriminate.
    intros [[_ H]|H]; [lra|discriminate H].
Qed.
Lemma frac_spec (x : B64) : nltb (nzero : B64) x && nltb x (nonev : B64) = true <-> fraction64 x.
Proof.
  rewrite andb_true_iff, pos_spec. unfold fraction64, positive64. pose proof one_real as [F1 E1]. cbn [INR] in E1.
  split.
  - intros [[[F P]|E] L]; [|rewrite E in L; vm_compute in L; discriminate L]. change (nltb x nonev) with (b64_ltb x nonev) in L.
    rewrite (phi_ltb x nonev (finite_nan x F) (finite_nan _ F1)), (phi_finite x F), (phi_finite _ F1), E1 in L. auto.
  - intros [F [P L]]. split; [auto|]. change (nltb x nonev) with (b64_ltb x nonev).
    rewrite (phi_ltb x nonev (finite_nan x F) (finite_nan _ F1)), (phi_finite x F), (phi_finite _ F1), E1. exact L.
Qed.
Lemma rassert_cases {A} (b : bool) (P : Prop) (k : res A) (Q : Prop) : (b = true <-> P) -> (k = Panic <-> ~ Q) -> (rassert b k = Panic <-> ~ (P /\ Q)).
Proof. intros H1 H2. unfold rassert. destruct b; [|split; [intros _ [p _]; apply H1 in p; discriminate|auto]]. rewrite H2. assert P by (apply H1; auto). tauto. Qed.
Lemma rassert_ok {A} (b : bool) (k : res A) v : b = true -> k = Ok v -> rassert b k = Ok v.
Proof. now intros -> ->. Qed.
Lemma ok_panic {A} (v : A) : Ok v = Panic <-> ~ True. Proof. split; [discriminate|tauto]. Qed.

Lemma gd_new_spec (a : B64) n : (positive64 a -> gd_new a n = Ok {| gd_alpha := a; gd_iters := n |}) /\ (gd_new a n = Panic <-> ~ positive64 a).
Proof.
  split; [intros H; apply rassert_ok; auto; now apply pos_spec|]. unfold gd_new. rewrite (rassert_cases _ _ _ _ (pos_spec a) (ok_panic _)). tauto.
Qed.
Lemma sgd_new_spec (a m : B64) n : (positive64 a /\ positive64 m -> sgd_new a m n = Ok {| sgd_alpha := a; sgd_mu := m; sgd_iters := n |}) /\
  (sgd_new a m n = Panic <-> ~ (positive64 a /\ positive64 m)).
Proof.
  split; [intros [H1 H2]; repeat apply rassert_ok; auto; now apply pos_spec|]. unfold sgd_new.
  rewrite (rassert_cases _ _ _ _ (pos_spec a) (rassert_cases _ _ _ _ (pos_spec m) (ok_panic _))). tauto.
Qed.
Lemma ada_new_spec (a t : B64) n : (positive64 a /\ nonneg64 t -> ada_new a t n = Ok {| ada_alpha := a; ada_tau := t; ada_iters := n |}) /\
  (ada_new a t n = Panic <-> ~ (positive64 a /\ nonneg64 t)).
Proof.
  split; [intros [H1 H2]; apply rassert_ok; [now apply pos_spec|]; apply rassert_ok; auto; now apply nonneg_spec|]. unfold ada_new.
  rewrite (rassert_cases _ _ _ _ (pos_spec a) (rassert_cases _ _ _ _ (nonneg_spec t) (ok_panic _))). tauto.
Qed.
Lemma rms_new_spec (r d e : B64) n : (positive64 r /\ fraction64 d /\ positive64 e -> rms_new r d e n = Ok {| rms_rate := r; rms_decay := d; rms_epsilon := e; rms_iters := n |}) /\
  (rms_new r d e n = Panic <-> ~ (positive64 r /\ fraction64 d /\ positive64 e)).
Proof.
  split; [intros (H1 & H2 & H3); apply rassert_ok; [now apply pos_spec|]; apply rassert_ok; [now apply frac_spec|]; apply rassert_ok; auto; now apply pos_spec|]. unfold rms_new.
  rewrite (rassert_cases _ _ _ _ (pos_spec r) (rassert_cases _ _ _ _ (frac_spec d) (rassert_cases _ _ _ _ (pos_spec e) (ok_panic _)))). tauto.
Qed.
Lemma dbscan_new_spec (e : B64) n : (positive64 e -> exists m, dbscan_new e n = Ok m /\ db_eps m = e /\ db_min_points m = n /\ db_clusters m = None /\ db_predictive m = false /\ db_cluster_data m = None) /\
  (dbscan_new e n = Panic <-> ~ positive64 e).
Proof.
  split; [intros H; eexists; split; [apply rassert_ok; [now apply pos_spec|reflexivity]|auto]|]. unfold dbscan_new. rewrite (rassert_cases _ _ _ _ (pos_spec e) (ok_panic _)). tauto.
Qed.
Lemma gmm_weights_spec (k : nat) (w : list B64) :
  ((length w <> k \/ exists x, In x w /\ negative64 x) -> gmm_with_weights k w = Err InvalidParameters) /\
  (~ (length w <> k \/ exists x, In x w /\ negative64 x) -> exists m, gmm_with_weights k w = Ok m).
Proof.
  unfold gmm_with_weights. destruct (Nat.eqb_spec (length w) k) as [E|E]; cbn [negb].
  - destruct (existsb (fun x => nltb x nzero) w) eqn:X.
    + split; auto. intros H. exfalso. apply H. right. apply existsb_exists in X. destruct X as (x & Hx & L). exists x. split; auto. now apply neg_spec.
    + split; [|intros _; eexists; reflexivity]. intros [H|(x & Hx & L)]; [congruence|]. exfalso.
      assert (Y : existsb (fun x => nltb x nzero) w = true) by (apply existsb_exists; exists x; split; auto; now apply neg_spec). congruence.
  - split; auto. intros H. exfalso. apply H. auto.
Qed.
Lemma gmm_nan_weight : exists m : GMM B64, gmm_with_weights 2 [b64_of_Z 1; B754_nan] = Ok m.
Proof. eexists. reflexivity. Qed.
Lemma new_cases : positive64 (b64_dec 1 1) /\ fraction64 (b64_dec 9 1) /\ nonneg64 (b64_of_Z 0) /\ ~ positive64 (b64_of_Z 0) /\ ~ positive64 B754_nan /\ ~ fraction64 (b64_of_Z 1).
Proof.
  split; [apply pos_spec; vm_compute; reflexivity|]. split; [apply frac_spec; vm_compute; reflexivity|]. split; [apply nonneg_spec; vm_compute; reflexivity|].
  split; [rewrite <- pos_spec; vm_compute; discriminate|]. split; [rewrite <- pos_spec; vm_compute; discriminate|]. rewrite <- frac_spec. vm_compute. discriminate.
Qed.
