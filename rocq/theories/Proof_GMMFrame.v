(** Lemmas for [Props_GMMFrame]: densities and fitted parameters in another frame. *)
From Coq Require Import List Arith Reals Lra Lia Bool.
From Verif Require Import Base BaseLemmas Num NumFn Linalg LinalgR Spec_Calc CalcR Proof_KMeans MatR Model_GMM Spec_GMM Proof_GMM Proof_GMM2 Proof_EM Spec_GMMFrame.
Import ListNotations.
Local Open Scope R_scope.

Lemma sum_delta d f a : (a < d)%nat -> sumR d (fun c => delta a c * f c) = f a.
Proof. intro H. rewrite (sumR_ext d _ (fun c => if (a =? c)%nat then f c else 0)) by (intros c _; unfold delta; destruct (a =? c)%nat; ring). now apply sumR_pick. Qed.
Lemma delta_sym a b : delta a b = delta b a. Proof. unfold delta. now rewrite Nat.eqb_sym. Qed.

Section Frame.
  Variables (d : nat) (A Ai : nat -> nat -> R) (b : nat -> R).
  Hypothesis inv : inverses d A Ai.
  Let T := coord d A b.
  (** [S] seen in the frame. *)
  Definition conj_by (S : nat -> nat -> R) (p q : nat) : R := sumR d (fun c => sumR d (fun e => A p c * S c e * A q e)).

  Lemma coord_diff x y a : T x a - T y a = sumR d (fun c => A a c * (x c - y c)).
  Proof. unfold T, coord. rewrite (sumR_ext d (fun c => A a c * (x c - y c)) (fun c => A a c * x c - A a c * y c)) by (intros; ring). rewrite sumR_minus. ring. Qed.

  (** The inverse covariance matrix. *)
  Lemma quad_frame C C' Ci Ci' (u v : nat -> R) :
    (forall p q, (p < d)%nat -> (q < d)%nat -> C p q = C q p) ->
    (forall p q, (p < d)%nat -> (q < d)%nat -> C' p q = conj_by C p q) ->
    (forall p q, (p < d)%nat -> (q < d)%nat -> sumR d (fun k => C p k * Ci k q) = delta p q) ->
    (forall p q, (p < d)%nat -> (q < d)%nat -> sumR d (fun k => C' p k * Ci' k q) = delta p q) ->
    (forall p, (p < d)%nat -> v p = sumR d (fun c => A p c * u c)) ->
    sumR d (fun q => sumR d (fun p => v p * Ci' p q) * v q) = sumR d (fun q => sumR d (fun p => u p * Ci p q) * u q).
  Proof.
    intros Sy EC' I I' Ev.
    set (w := fun p => sumR d (fun q => Ci p q * u q)). set (w' := fun p => sumR d (fun q => Ci' p q * v q)).
    assert (Q : forall (f g : nat -> R) M, sumR d (fun q => sumR d (fun p => f p * M p q) * g q) = sumR d (fun p => f p * sumR d (fun q => M p q * g q))).
    { intros f g M. rewrite (sumR_ext d _ (fun q => sumR d (fun p => f p * M p q * g q))) by (intros; now rewrite <- sumR_scal_r).
      rewrite sumR_exch. apply sumR_ext. intros p _. rewrite <- sumR_scal. apply sumR_ext. intros. ring. }
    rewrite !Q. fold w. change (sumR d (fun p => v p * w' p) = sumR d (fun p => u p * w p)).
    assert (Cw : forall p, (p < d)%nat -> sumR d (fun k => C p k * w k) = u p).
    { intros p Hp. unfold w. rewrite <- (Q (C p) u Ci). rewrite (sumR_ext d _ (fun q => delta p q * u q)) by (intros q Hq; now rewrite I). now apply sum_delta. }
    assert (Cw' : forall p, (p < d)%nat -> sumR d (fun k => C' p k * w' k) = v p).
    { intros p Hp. unfold w'. rewrite <- (Q (C' p) v Ci'). rewrite (sumR_ext d _ (fun q => delta p q * v q)) by (intros q Hq; now rewrite I'). now apply sum_delta. }
    (** [A^T w' = w]. *)
    set (s := fun e => sumR d (fun k => A k e * w' k)).
    assert (Cs : forall p, (p < d)%nat -> sumR d (fun c => A p c * sumR d (fun e => C c e * s e)) = sumR d (fun c => A p c * u c)).
    { intros p Hp. rewrite <- Ev, <- Cw' by auto. symmetry.
      rewrite (sumR_ext d _ (fun k => sumR d (fun c => sumR d (fun e => A p c * C c e * A k e * w' k)))).
      2:{ intros k Hk. rewrite EC' by auto. unfold conj_by. rewrite <- sumR_scal_r. apply sumR_ext. intros c _. now rewrite <- sumR_scal_r. }
      rewrite sumR_exch. apply sumR_ext. intros c _. rewrite sumR_exch. rewrite <- sumR_scal. apply sumR_ext. intros e _. unfold s. rewrite <- !sumR_scal. apply sumR_ext. intros k _. ring. }
    assert (CsU : forall c, (c < d)%nat -> sumR d (fun e => C c e * s e) = u c).
    { assert (L : forall f g : nat -> R, (forall p, (p < d)%nat -> sumR d (fun c => A p c * f c) = sumR d (fun c => A p c * g c)) -> forall c, (c < d)%nat -> f c = g c).
      { intros f g H c Hc.
        assert (E : forall h, sumR d (fun p => Ai c p * sumR d (fun k => A p k * h k)) = h c).
        { intro h. rewrite <- (Q (Ai c) h A). rewrite (sumR_ext d _ (fun q => delta c q * h q)); [now apply sum_delta|]. intros q Hq. destruct (inv c q Hc Hq) as [_ E]. unfold mprod in E. now rewrite E. }
        rewrite <- (E f), <- (E g). apply sumR_ext. intros p Hp. now rewrite H. }
      intros c Hc. apply (L (fun c => sumR d (fun e => C c e * s e)) u); auto. }
    assert (J : forall f g : nat -> R, (forall p, (p < d)%nat -> sumR d (fun k => C p k * f k) = sumR d (fun k => C p k * g k)) -> forall k, (k < d)%nat -> f k = g k).
    { intros f g H k Hk.
      assert (E : forall h, sumR d (fun p => Ci p k * sumR d (fun l => C p l * h l)) = h k).
      { intro h. rewrite <- (Q (fun p => Ci p k) h C). rewrite (sumR_ext d _ (fun q => delta k q * h q)); [now apply sum_delta|]. intros q Hq. f_equal. rewrite delta_sym, <- (I q k) by auto. apply sumR_ext. intros l Hl. rewrite (Sy l q) by auto. ring. }
      rewrite <- (E f), <- (E g). apply sumR_ext. intros p Hp. now rewrite H. }
    assert (Es : forall k, (k < d)%nat -> s k = w k) by (intros k Hk; apply (J s w); auto; intros p Hp; rewrite CsU, Cw; auto).
    rewrite (sumR_ext d _ (fun p => sumR d (fun c => A p c * u c * w' p))) by (intros p Hp; rewrite Ev by auto; now rewrite <- sumR_scal_r).
    rewrite sumR_exch. apply sumR_ext. intros c Hc. rewrite <- Es by auto. unfold s. rewrite <- sumR_scal. apply sumR_ext. intros. ring.
  Qed.

  Section Det.
    Variable D : (nat -> nat -> R) -> R.
    Hypothesis HD : determinant d D.
    Lemma det_unit : D A <> 0.
    Proof.
      destruct HD as (E & M & _ & Tr). intro Z. assert (K : D (mprod d A Ai) = 1).
      { rewrite (E _ delta) by (intros i j Hi Hj; now apply inv). rewrite Tr. - clear. induction d as [|n IH]; [reflexivity|]. cbn [prodR]. rewrite IH. unfold delta. rewrite Nat.eqb_refl. ring.
        - intros i j Hij Hj. unfold delta. destruct (Nat.eqb_spec i j); [lia|reflexivity]. }
      rewrite M, Z in K. lra.
    Qed.
    Lemma det_conj S : D (conj_by S) = D A * D A * D S.
    Proof.
      destruct HD as (E & M & Tp & _). transitivity (D (mprod d (mprod d A S) (fun i j => A j i))).
      - apply E. intros i j Hi Hj. unfold conj_by, mprod. rewrite sumR_exch. apply sumR_ext. intros e _. now rewrite <- sumR_scal_r.
      - rewrite !M, (Tp A). ring.
    Qed.
    Variable lup : matrix R -> res (R * matrix R).
    Hypothesis lup_ok : lup_sound lup.
    Hypothesis Hdet : lup_det d D lup.
    Lemma gauss_frame C C' det det' Ci Ci' x mu x' mu' : covariance d C -> covariance d C' -> (forall p q, (p < d)%nat -> (q < d)%nat -> entry C' p q = conj_by (entry C) p q) ->
      lup C = Ok (det, Ci) -> lup C' = Ok (det', Ci') -> (forall a, (a < d)%nat -> x' a = T x a) -> (forall a, (a < d)%nat -> mu' a = T mu a) ->
      gauss d det' Ci' x' mu' = gauss d det Ci x mu / Rabs (D A).
    Proof.
      intros HC HC' EC L L' Ex Em. destruct (lup_ok C d det Ci HC L) as (P & _ & _ & _ & I). destruct (lup_ok C' d det' Ci' HC' L') as (P' & _ & _ & _ & I').
      assert (Ed : det' = D A * D A * det).
      { rewrite (Hdet C' det' Ci' HC' L'), (Hdet C det Ci HC L), <- det_conj. destruct HD as (E & _). apply E. exact EC. }
      unfold gauss. replace (quad d Ci' x' mu') with (quad d Ci x mu).
      - rewrite Ed. rewrite sqrt_mult_alt by exact (Rle_0_sqr (D A)). change (D A * D A) with (Rsqr (D A)). rewrite sqrt_Rsqr_abs.
        assert (0 < sqrt det) by now apply sqrt_lt_R0. pose proof (Rabs_pos_lt _ det_unit). field. split; lra.
      - unfold quad. symmetry. destruct HC as (_ & _ & _ & Sy & _).
        apply (quad_frame (entry C) (entry C') (entry Ci) (entry Ci') (fun a => x a - mu a) (fun a => x' a - mu' a)); auto.
        intros p Hp. rewrite Ex, Em by auto. apply coord_diff.
    Qed.
  End Det.

  (** Fitted parameters. *)
  Lemma scatter_frame n (w : nat -> R) (X X' : nat -> nat -> R) (m m' : nat -> R) : (forall i a, (i < n)%nat -> (a < d)%nat -> X' i a = T (X i) a) -> (forall a, (a < d)%nat -> m' a = T m a) ->
    forall p q, (p < d)%nat -> (q < d)%nat -> sumR n (fun i => w i * ((X' i p - m' p) * (X' i q - m' q))) = conj_by (fun c e => sumR n (fun i => w i * ((X i c - m c) * (X i e - m e)))) p q.
  Proof.
    intros EX Em p q Hp Hq. unfold conj_by.
    rewrite (sumR_ext n _ (fun i => sumR d (fun c => sumR d (fun e => A p c * (w i * ((X i c - m c) * (X i e - m e))) * A q e)))).
    - rewrite sumR_exch. apply sumR_ext. intros c _. rewrite sumR_exch. apply sumR_ext. intros e _. rewrite sumR_scal_r. f_equal. now rewrite sumR_scal.
    - intros i Hi. rewrite !EX, !Em, !coord_diff by auto. rewrite <- sumR_scal_r, <- sumR_scal. apply sumR_ext. intros c _. rewrite <- !sumR_scal. apply sumR_ext. intros e _. ring.
  Qed.
  Lemma conj_scale S k p q : conj_by (fun c e => S c e * k) p q = conj_by S p q * k.
  Proof. unfold conj_by. rewrite <- sumR_scal_r. apply sumR_ext. intros c _. rewrite <- sumR_scal_r. apply sumR_ext. intros. ring. Qed.
  Lemma conj_plus S S' p q : conj_by (fun c e => S c e + S' c e) p q = conj_by S p q + conj_by S' p q.
  Proof. unfold conj_by. rewrite <- sumR_plus. apply sumR_ext. intros c _. rewrite <- sumR_plus. apply sumR_ext. intros. ring. Qed.
  Lemma conj_ext S S' p q : (forall c e, (c < d)%nat -> (e < d)%nat -> S c e = S' c e) -> conj_by S p q = conj_by S' p q.
  Proof. intro H. unfold conj_by. apply sumR_ext. intros c Hc. apply sumR_ext. intros e He. now rewrite H. Qed.
  Lemma mean_frame n (w : nat -> R) s (X X' : nat -> nat -> R) : (forall i a, (i < n)%nat -> (a < d)%nat -> X' i a = T (X i) a) -> sumR n w = s -> s <> 0 ->
    forall a, (a < d)%nat -> sumR n (fun i => w i * X' i a) / s = T (fun c => sumR n (fun i => w i * X i c) / s) a.
  Proof.
    intros EX Es Ns a Ha. unfold T, coord. rewrite (sumR_ext n _ (fun i => sumR d (fun c => A a c * (w i * X i c)) + w i * b a)).
    - rewrite sumR_plus, sumR_exch, sumR_scal_r, Es. unfold Rdiv. rewrite Rmult_plus_distr_r. f_equal; [|field; auto].
      rewrite <- sumR_scal_r. apply sumR_ext. intros c _. rewrite sumR_scal. ring.
    - intros i Hi. rewrite EX by auto. unfold T, coord. rewrite Rmult_plus_distr_l, <- sumR_scal. f_equal. apply sumR_ext. intros. ring.
  Qed.
  (** The covariance options. *)
  Lemma diag_frame S S' : (forall p q, (p < d)%nat -> (q < d)%nat -> p <> q -> A p q = 0) ->
    (forall p, (p < d)%nat -> S' p = conj_by (fun c e => S c e) p p) -> forall p q, (p < d)%nat -> (q < d)%nat ->
    (if (p =? q)%nat then S' p else 0) = conj_by (fun c e => if (c =? e)%nat then S c c else 0) p q.
  Proof.
    intros Dg ES p q Hp Hq.
    assert (K : forall U, conj_by U p q = A p p * U p q * A q q).
    { intro U. unfold conj_by. rewrite (sumR_single d _ p); auto.
      - rewrite (sumR_single d _ q); auto. intros e He Ne. rewrite (Dg q e) by auto. ring.
      - intros c Hc Nc. apply sumR_zero. intros e He. rewrite (Dg p c) by auto. ring. }
    rewrite K. destruct (Nat.eqb_spec p q) as [->|N]; [|ring]. rewrite ES by auto. now rewrite K.
  Qed.
  Lemma ident_frame k : (forall p q, (p < d)%nat -> (q < d)%nat -> sumR d (fun c => A p c * A q c) = delta p q) -> forall p q, (p < d)%nat -> (q < d)%nat ->
    (if (p =? q)%nat then k else 0) = conj_by (fun c e => if (c =? e)%nat then k else 0) p q.
  Proof.
    intros O p q Hp Hq. unfold conj_by. rewrite (sumR_ext d _ (fun c => A p c * A q c * k)).
    - rewrite sumR_scal_r, O by auto. unfold delta. destruct (p =? q)%nat; ring.
    - intros c Hc. rewrite (sumR_ext d _ (fun e => if (c =? e)%nat then A p c * k * A q e else 0)) by (intros e _; destruct (c =? e)%nat; ring).
      rewrite sumR_pick by auto. ring.
  Qed.
  Lemma fitted_cov_frame opt n W X X' j : suits opt d A -> (forall i a, (i < n)%nat -> (a < d)%nat -> X' i a = T (X i) a) -> wsum n W j <> 0 ->
    (forall a, (a < d)%nat -> wmean n W X' j a = T (wmean n W X j) a) /\
    forall p q, (p < d)%nat -> (q < d)%nat -> fitted_cov opt n W X' j p q = conj_by (fitted_cov opt n W X j) p q.
  Proof.
    intros Su EX Ns.
    assert (Em : forall a, (a < d)%nat -> wmean n W X' j a = T (wmean n W X j) a) by (intros a Ha; apply (mean_frame n (fun i => W i j) (wsum n W j) X X'); auto).
    split; [exact Em|].
    assert (Ec : forall p q, (p < d)%nat -> (q < d)%nat -> wcov n W X' j p q = conj_by (wcov n W X j) p q).
    { intros p q Hp Hq. unfold wcov at 1. rewrite (scatter_frame n (fun i => W i j) X X' (wmean n W X j) (wmean n W X' j) EX Em p q Hp Hq).
      unfold Rdiv. rewrite <- conj_scale. reflexivity. }
    intros p q Hp Hq. destruct opt as [|eps|]; cbn [fitted_cov suits] in *.
    - now apply Ec.
    - rewrite Ec by auto. rewrite (ident_frame _ Su p q Hp Hq). symmetry. exact (conj_plus (wcov n W X j) (fun c e => if (c =? e)%nat then eps / wsum n W j else 0) p q).
    - apply (diag_frame (wcov n W X j) (fun a => wcov n W X' j a a) Su); auto.
  Qed.
  Lemma start_cov_frame opt (X X' : matrix R) : suits opt d A -> nrows X' = nrows X -> (1 < nrows X)%nat -> (forall i a, (i < nrows X)%nat -> (a < d)%nat -> entry X' i a = T (entry X i) a) ->
    forall p q, (p < d)%nat -> (q < d)%nat -> start_cov opt X' p q = conj_by (start_cov opt X) p q.
  Proof.
    intros Su EN HN EX.
    assert (Em : forall a, (a < d)%nat -> data_mean X' a = T (data_mean X) a).
    { intros a Ha. assert (N0 : INR (nrows X) <> 0) by (apply not_0_INR; lia).
      pose proof (mean_frame (nrows X) (fun _ => 1) (INR (nrows X)) (entry X) (entry X') EX ltac:(rewrite sumR_const; ring) N0 a Ha) as K.
      unfold data_mean. rewrite EN. etransitivity; [etransitivity; [|exact K]|].
      - f_equal. apply sumR_ext. intros. ring.
      - unfold T, coord. f_equal. apply sumR_ext. intros c _. f_equal. f_equal. apply sumR_ext. intros. ring. }
    assert (Ec : forall p q, (p < d)%nat -> (q < d)%nat -> data_cov X' p q = conj_by (data_cov X) p q).
    { intros p q Hp Hq. pose proof (scatter_frame (nrows X) (fun _ => 1) (entry X) (entry X') (data_mean X) (data_mean X') EX Em p q Hp Hq) as K.
      unfold data_cov at 1. rewrite EN. rewrite (sumR_ext (nrows X) _ (fun i => 1 * ((entry X' i p - data_mean X' p) * (entry X' i q - data_mean X' q)))) by (intros; ring).
      rewrite K. unfold Rdiv. rewrite <- conj_scale. apply conj_ext. intros c e _ _. unfold data_cov, Rdiv. f_equal. apply sumR_ext. intros. ring. }
    intros p q Hp Hq. destruct opt as [|eps|]; cbn [start_cov suits] in *.
    - now apply Ec.
    - rewrite Ec by auto. rewrite (ident_frame _ Su p q Hp Hq). symmetry. exact (conj_plus (data_cov X) (fun c e => if (c =? e)%nat then eps else 0) p q).
    - rewrite EN. unfold Rdiv. rewrite (diag_frame (data_cov X) (fun a => data_cov X' a a) Su) by auto. now rewrite <- conj_scale.
  Qed.
End Frame.
