(** Proofs about Gaussian mixture models. *)
From Coq Require Import List Arith Lia Bool Reals Lra Permutation.
From Verif Require Import Base BaseLemmas Num NumFn Linalg LinalgR Spec_Calc CalcR Model_Rand Proof_Rand Proof_KMeans MatR
  Model_Optim Model_GP Model_NNet Proof_GP Proof_PCA Model_GMM Spec_GMM.
Import ListNotations.
Local Open Scope R_scope.

(** ** Small matrices by entries *)
Lemma entry_build r c f i j : (i < r)%nat -> (j < c)%nat ->
  entry (Mat (map (fun i => map (f i) (seq 0 c)) (seq 0 r)) c) i j = f i j.
Proof. intros Hi Hj. unfold entry. cbn [mrows]. rewrite nth_map_seq by exact Hi. apply nth_map_seq. exact Hj. Qed.
Lemma build_wf {F} r c (f : nat -> nat -> F) : mwf (Mat (map (fun i => map (f i) (seq 0 c)) (seq 0 r)) c).
Proof. apply Forall_forall. intros x Hx. cbn in Hx. apply in_map_iff in Hx. destruct Hx as (i & <- & _). cbn. rewrite map_length, seq_length. reflexivity. Qed.
Lemma build_nrows {F} r c (f : nat -> nat -> F) : nrows (Mat (map (fun i => map (f i) (seq 0 c)) (seq 0 r)) c) = r.
Proof. unfold nrows. cbn. rewrite map_length, seq_length. reflexivity. Qed.
Definition square (d : nat) (C : matrix R) : Prop := mwf C /\ nrows C = d /\ mcols C = d.
Lemma square_build d f : square d (Mat (map (fun i => map (f i) (seq 0 d)) (seq 0 d)) d).
Proof. split; [apply build_wf|]. split; [apply build_nrows|reflexivity]. Qed.
Lemma mmap_entry (f : R -> R) C i j : mwf C -> (i < nrows C)%nat -> (j < mcols C)%nat -> entry (mmap f C) i j = f (entry C i j).
Proof.
  intros W Hi Hj. unfold entry, mmap. cbn [mrows]. rewrite (nth_map _ _ _ _ []) by exact Hi.
  rewrite (nth_map _ _ _ _ 0); [reflexivity|]. rewrite (mwf_row C i W Hi). exact Hj.
Qed.
Lemma mmap_square f d C : square d C -> square d (mmap f C).
Proof.
  intros (W & R & E). split; [|split; [unfold nrows in *; cbn; rewrite map_length; exact R|exact E]].
  apply Forall_forall. intros x Hx. cbn in Hx. apply in_map_iff in Hx. destruct Hx as (y & <- & Hy). rewrite map_length.
  cbn. unfold mwf in W. rewrite Forall_forall in W. apply W. exact Hy.
Qed.
Lemma mzip_entry (f : R -> R -> R) A B i j d : square d A -> square d B -> (i < d)%nat -> (j < d)%nat ->
  entry (mzip f A B) i j = f (entry A i j) (entry B i j).
Proof.
  intros (WA & RA & CA) (WB & RB & CB) Hi Hj. unfold entry, mzip. cbn [mrows]. unfold nrows in *.
  rewrite (map2_nth _ _ _ _ [] []) by lia. apply map2_nth.
  - rewrite (mwf_row A i WA) by (unfold nrows; lia). lia.
  - rewrite (mwf_row B i WB) by (unfold nrows; lia). lia.
Qed.
Lemma mzip_square f A B d : square d A -> square d B -> square d (mzip f A B).
Proof.
  intros (WA & RA & CA) (WB & RB & CB). unfold nrows in *. split; [|split].
  - apply Forall_forall. intros x Hx. cbn in Hx. destruct (In_nth _ _ [] Hx) as (i & Hi & <-). rewrite map2_length in Hi.
    rewrite (map2_nth _ _ _ _ [] []) by lia. rewrite map2_length.
    rewrite (mwf_row A i WA), (mwf_row B i WB) by (unfold nrows; lia). cbn. lia.
  - unfold nrows. cbn. rewrite map2_length. lia.
  - exact CA.
Qed.
Lemma from_diag_square (d : list R) : square (length d) (from_diag d).
Proof. apply (square_build (length d) (fun i j => if (i =? j)%nat then nth i d 0 else 0)). Qed.
Lemma from_diag_entry (d : list R) i j : (i < length d)%nat -> (j < length d)%nat -> entry (from_diag d) i j = if (i =? j)%nat then nth i d 0 else 0.
Proof. intros Hi Hj. apply (entry_build (length d) (length d) (fun i j => if (i =? j)%nat then nth i d 0 else 0)); auto. Qed.
Lemma scaled_identity_square d (e : R) : square d (scaled_identity d e).
Proof. apply (square_build d (fun i j => (if (i =? j)%nat then 1 else 0) * e)). Qed.
Lemma scaled_identity_entry d e i j : (i < d)%nat -> (j < d)%nat -> entry (scaled_identity d e) i j = if (i =? j)%nat then e else 0.
Proof.
  intros Hi Hj. rewrite (entry_build d d (fun i j => (if (i =? j)%nat then 1 else 0) * e)) by auto. destruct (i =? j)%nat; ring.
Qed.
Lemma zeros_square d : square d (zeros d d).
Proof.
  split; [|split; [unfold nrows; cbn; apply repeat_length|reflexivity]].
  apply Forall_forall. intros x Hx. cbn in Hx. apply repeat_spec in Hx. subst x. apply repeat_length.
Qed.
Lemma nth_rep {A} (x d : A) n i : (i < n)%nat -> nth i (repeat x n) d = x.
Proof. revert i. induction n as [|n IH]; intros [|i] H; cbn; try lia; auto. apply IH. lia. Qed.
Lemma zeros_entry d i j : (i < d)%nat -> (j < d)%nat -> entry (zeros (F := R) d d) i j = 0.
Proof. intros Hi Hj. unfold entry, zeros. cbn [mrows]. rewrite nth_rep by exact Hi. apply nth_rep. exact Hj. Qed.

(** ** Positive semidefinite matrices *)
Lemma covariance_square d C : covariance d C -> square d C.
Proof. intros (W & R & E & _). split; auto. Qed.
Definition quadform (d : nat) (C : matrix R) (u : nat -> R) : R := sumR d (fun a => sumR d (fun b => u a * entry C a b * u b)).
Lemma quadform_ext d C f u : (forall a b, (a < d)%nat -> (b < d)%nat -> entry C a b = f a b) ->
  quadform d C u = sumR d (fun a => sumR d (fun b => u a * f a b * u b)).
Proof. intros H. apply sumR_ext. intros a Ha. apply sumR_ext. intros b Hb. rewrite H by auto. reflexivity. Qed.
Lemma diag_form d (e : nat -> R) u : sumR d (fun a => sumR d (fun b => u a * (if (a =? b)%nat then e a else 0) * u b)) = sumR d (fun a => e a * (u a * u a)).
Proof.
  apply sumR_ext. intros a Ha. rewrite (sumR_ext d _ (fun b => if (a =? b)%nat then e a * (u a * u b) else 0)).
  - rewrite (sumR_pick d (fun b => e a * (u a * u b))) by auto. reflexivity.
  - intros b Hb. destruct (Nat.eqb_spec a b); [subst|]; ring.
Qed.
Lemma outer_form d (v u : nat -> R) : sumR d (fun a => sumR d (fun b => u a * (v a * v b) * u b)) = sumR d (fun a => v a * u a) * sumR d (fun a => v a * u a).
Proof.
  rewrite <- sumR_scal_r. apply sumR_ext. intros a _. rewrite <- sumR_scal. apply sumR_ext. intros b _. ring.
Qed.
Lemma form_scale d f c u : sumR d (fun a => sumR d (fun b => u a * (f a b * c) * u b)) = c * sumR d (fun a => sumR d (fun b => u a * f a b * u b)).
Proof.
  rewrite <- sumR_scal. apply sumR_ext. intros a _. rewrite <- sumR_scal. apply sumR_ext. intros b _. ring.
Qed.
Lemma form_plus d f g u : sumR d (fun a => sumR d (fun b => u a * (f a b + g a b) * u b)) =
  sumR d (fun a => sumR d (fun b => u a * f a b * u b)) + sumR d (fun a => sumR d (fun b => u a * g a b * u b)).
Proof.
  rewrite <- sumR_plus. apply sumR_ext. intros a _. rewrite <- sumR_plus. apply sumR_ext. intros b _. ring.
Qed.
Lemma form_sum d n (f : nat -> nat -> nat -> R) u : sumR d (fun a => sumR d (fun b => u a * sumR n (fun i => f i a b) * u b)) =
  sumR n (fun i => sumR d (fun a => sumR d (fun b => u a * f i a b * u b))).
Proof.
  induction n as [|n IH]; cbn [sumR].
  - apply sumR_zero. intros a _. apply sumR_zero. intros b _. ring.
  - rewrite <- IH. apply form_plus.
Qed.
Lemma covariance_intro d C f : square d C -> (forall a b, (a < d)%nat -> (b < d)%nat -> entry C a b = f a b) ->
  (forall a b, (a < d)%nat -> (b < d)%nat -> f a b = f b a) ->
  (forall u, 0 <= sumR d (fun a => sumR d (fun b => u a * f a b * u b))) -> covariance d C.
Proof.
  intros (W & R & E) HE HS HP. split; [exact W|]. split; [exact R|]. split; [exact E|]. split.
  - intros a b Ha Hb. rewrite !HE by auto. auto.
  - intros u. change (0 <= quadform d C u). rewrite (quadform_ext d C f u HE). apply HP.
Qed.
Lemma covariance_scale d C c : covariance d C -> 0 <= c -> covariance d (mmap (fun x => x * c) C).
Proof.
  intros HC Hc. destruct (covariance_square _ _ HC) as (W & R & E). destruct HC as (_ & _ & _ & HS & HP).
  apply covariance_intro with (f := fun a b => entry C a b * c).
  - apply mmap_square. split; auto.
  - intros a b Ha Hb. apply mmap_entry; auto; lia.
  - intros a b Ha Hb. rewrite HS by auto. reflexivity.
  - intros u. rewrite form_scale. apply Rmult_le_pos; auto.
Qed.
Lemma covariance_div d C c : covariance d C -> 0 < c -> covariance d (mmap (fun x => x / c) C).
Proof. intros HC Hc. apply (covariance_scale d C (/ c) HC). left. apply Rinv_0_lt_compat. exact Hc. Qed.
Lemma covariance_add d A B : covariance d A -> covariance d B -> covariance d (mzip Rplus A B).
Proof.
  intros HA HB. pose proof (covariance_square _ _ HA) as SA. pose proof (covariance_square _ _ HB) as SB.
  destruct HA as (_ & _ & _ & HSA & HPA). destruct HB as (_ & _ & _ & HSB & HPB).
  apply covariance_intro with (f := fun a b => entry A a b + entry B a b).
  - apply mzip_square; auto.
  - intros a b Ha Hb. apply (mzip_entry Rplus A B a b d); auto.
  - intros a b Ha Hb. rewrite HSA, HSB by auto. reflexivity.
  - intros u. rewrite form_plus. specialize (HPA u). specialize (HPB u). lra.
Qed.
Lemma covariance_diag (v : list R) : (forall i, (i < length v)%nat -> 0 <= nth i v 0) -> covariance (length v) (from_diag v).
Proof.
  intros Hv. apply covariance_intro with (f := fun a b => if (a =? b)%nat then nth a v 0 else 0).
  - apply from_diag_square.
  - intros a b Ha Hb. apply from_diag_entry; auto.
  - intros a b Ha Hb. rewrite (Nat.eqb_sym b a). destruct (Nat.eqb_spec a b); [subst|]; reflexivity.
  - intros u. rewrite diag_form. apply sumR_ge0. intros a Ha. apply Rmult_le_pos; auto. apply Rle_0_sqr.
Qed.
Lemma covariance_identity d e : 0 <= e -> covariance d (scaled_identity d e).
Proof.
  intros He. apply covariance_intro with (f := fun a b => if (a =? b)%nat then e else 0).
  - apply scaled_identity_square.
  - intros a b Ha Hb. apply scaled_identity_entry; auto.
  - intros a b Ha Hb. rewrite (Nat.eqb_sym b a). reflexivity.
  - intros u. rewrite (diag_form d (fun _ => e)). apply sumR_ge0. intros a Ha. apply Rmult_le_pos; auto. apply Rle_0_sqr.
Qed.
Lemma covariance_zeros d : covariance d (zeros d d).
Proof.
  apply covariance_intro with (f := fun _ _ => 0).
  - apply zeros_square.
  - intros. apply zeros_entry; auto.
  - reflexivity.
  - intros u. right. symmetry. apply sumR_zero. intros. apply sumR_zero. intros. ring.
Qed.

(** ** Initial covariances *)
Lemma fold_vsum_map {A} (f : A -> R) l : vsum (map f l) = rsum (map f l).
Proof. apply vsum_R. Qed.
Lemma col_var_ge0 (X : matrix R) j : (1 < nrows X)%nat -> 0 <= nth j (col_var X) 0.
Proof.
  intros H. unfold col_var. destruct (Nat.lt_ge_cases j (mcols X)) as [Hj|Hj].
  - rewrite nth_map_seq by exact Hj. cbn [ndiv nofnat NumR]. apply Rmult_le_pos.
    + rewrite vsum_R. apply rsum_ge0. apply Forall_forall. intros x Hx. apply in_map_iff in Hx. destruct Hx as (y & <- & _). apply Rle_0_sqr.
    + left. apply Rinv_0_lt_compat. apply lt_0_INR. lia.
  - rewrite nth_overflow; [lra|]. rewrite map_length, seq_length. exact Hj.
Qed.
Definition scatter (X : matrix R) (a b : nat) : R :=
  sumR (nrows X) (fun i => (entry X i a - nth a (col_mean X) 0) * (entry X i b - nth b (col_mean X) 0)).
Lemma scatter_ge0 X d u : 0 <= sumR d (fun a => sumR d (fun b => u a * scatter X a b * u b)).
Proof.
  unfold scatter. rewrite (form_sum d (nrows X) (fun i a b => (entry X i a - nth a (col_mean X) 0) * (entry X i b - nth b (col_mean X) 0))).
  apply sumR_ge0. intros i _.
  rewrite (outer_form d (fun a => entry X i a - nth a (col_mean X) 0) u). apply Rle_0_sqr.
Qed.
Lemma scatter_matrix (X : matrix R) reg a b : (a < mcols X)%nat -> (b < mcols X)%nat ->
  entry (mmap (fun x => x * reg) (Mat (map (fun j => map (fun k =>
     vsum (map (fun r => (nth j r 0 - nth j (col_mean X) 0) * (nth k r 0 - nth k (col_mean X) 0)) (mrows X)))
     (seq 0 (mcols X))) (seq 0 (mcols X))) (mcols X))) a b = scatter X a b * reg.
Proof.
  intros Ha Hb. rewrite mmap_entry.
  - f_equal. rewrite (entry_build (mcols X) (mcols X) (fun j k => vsum (map (fun r => (nth j r 0 - nth j (col_mean X) 0) * (nth k r 0 - nth k (col_mean X) 0)) (mrows X)))) by auto.
    rewrite vsum_R, rsum_nth, map_length. apply sumR_ext. intros i Hi. rewrite (nth_map _ _ _ _ []) by exact Hi. reflexivity.
  - apply build_wf.
  - rewrite build_nrows. exact Ha.
  - exact Hb.
Qed.
Lemma initial_cov_entry (self : GMM R) X reg a b : (a < mcols X)%nat -> (b < mcols X)%nat ->
  square (mcols X) (initialize_covariances self X reg) /\
  entry (initialize_covariances self X reg) a b =
    match gmm_cov_option self with
    | CovDiagonal => (if (a =? b)%nat then nth a (col_var X) 0 else 0) * sqrt reg
    | CovFull => scatter X a b * reg
    | CovRegularized eps => scatter X a b * reg + (if (a =? b)%nat then eps else 0)
    end.
Proof.
  intros Ha Hb. unfold initialize_covariances.
  assert (LV : length (col_var X) = mcols X) by (unfold col_var; rewrite map_length, seq_length; reflexivity).
  assert (SF : square (mcols X) (mmap (fun x => x * reg) (Mat (map (fun j => map (fun k =>
     vsum (map (fun r => (nth j r 0 - nth j (col_mean X) 0) * (nth k r 0 - nth k (col_mean X) 0)) (mrows X)))
     (seq 0 (mcols X))) (seq 0 (mcols X))) (mcols X)))).
  { apply mmap_square. apply square_build. }
  destruct (gmm_cov_option self) as [|eps|].
  - split; [exact SF|apply scatter_matrix; auto].
  - split; [apply (mzip_square _ _ _ _ SF (scaled_identity_square _ eps))|].
    etransitivity; [apply (mzip_entry Rplus _ _ a b (mcols X) SF (scaled_identity_square _ eps)); auto|].
    rewrite scaled_identity_entry by auto. f_equal. apply scatter_matrix; auto.
  - assert (SD := from_diag_square (col_var X)). rewrite LV in SD. split; [apply mmap_square; exact SD|].
    destruct SD as (WD & RD & CD). etransitivity; [apply mmap_entry; auto; lia|]. rewrite from_diag_entry by lia. reflexivity.
Qed.
Lemma initial_covariance (self : GMM R) X reg : (1 < nrows X)%nat -> 0 <= reg ->
  match gmm_cov_option self with CovRegularized eps => 0 <= eps | _ => True end ->
  covariance (mcols X) (initialize_covariances self X reg).
Proof.
  intros HX Hr He.
  assert (SF : covariance (mcols X) (mmap (fun x => x * reg) (Mat (map (fun j => map (fun k =>
     vsum (map (fun r => (nth j r 0 - nth j (col_mean X) 0) * (nth k r 0 - nth k (col_mean X) 0)) (mrows X)))
     (seq 0 (mcols X))) (seq 0 (mcols X))) (mcols X)))).
  { apply covariance_intro with (f := fun a b => scatter X a b * reg).
    - apply mmap_square. apply square_build.
    - intros. apply scatter_matrix; auto.
    - intros. f_equal. apply sumR_ext. intros. ring.
    - intros u. rewrite form_scale. apply Rmult_le_pos; auto. apply scatter_ge0. }
  unfold initialize_covariances. destruct (gmm_cov_option self) as [|eps|].
  - exact SF.
  - apply covariance_add; [exact SF|apply covariance_identity; exact He].
  - assert (LV : length (col_var X) = mcols X) by (unfold col_var; rewrite map_length, seq_length; reflexivity).
    rewrite <- LV. apply covariance_scale; [|apply sqrt_pos]. apply covariance_diag. intros i _. apply col_var_ge0. exact HX.
Qed.
