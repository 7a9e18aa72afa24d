(** * One feature, and one feature more, in linear regression *)
From Coq Require Import List Arith Lia Bool Reals Lra.
From Verif Require Import Base BaseLemmas Num Linalg LinalgR Spec_Calc CalcR Proof_KMeans Proof_KMeans3
  Model_Regression Spec_Regression Proof_Regression Spec_Succeeds Proof_Succeeds Spec_LSStats Proof_LSStats Spec_Feature.
Import ListNotations.
Local Open Scope R_scope.

Lemma app_rows_nth (rs : list (list R)) : forall c i, length c = length rs -> (i < length rs)%nat ->
  nth i (map2 (fun r z => r ++ [z]) rs c) [] = nth i rs [] ++ [nth i c 0].
Proof.
  induction rs as [|r rs IH]; intros c i L H; [cbn in H; lia|]. destruct c as [|z c]; [discriminate|]. destruct i; [reflexivity|].
  cbn [map2 nth]. apply IH; cbn in *; lia.
Qed.
Lemma app_rows_length (rs : list (list R)) : forall c, length c = length rs -> length (map2 (fun r z => r ++ [z]) rs c) = length rs.
Proof. induction rs as [|r rs IH]; intros [|z c] L; try discriminate; auto. cbn in *. f_equal. apply IH. lia. Qed.
Lemma map2_nth2 (f : R -> R -> R) : forall u v k, length u = length v -> (k < length u)%nat -> nth k (map2 f u v) 0 = f (nth k u 0) (nth k v 0).
Proof. intros. apply map2_nth; lia. Qed.
Lemma map2_length2 (f : R -> R -> R) u v : length u = length v -> length (map2 f u v) = length u.
Proof. intros. rewrite map2_length. lia. Qed.

Section Feature.
  Variables (X : matrix R) (c : list R).
  Hypothesis W : mwf X.
  Hypothesis Lc : length c = nrows X.
  Let X' := with_feature X c.
  Let n := nrows X.
  Let D := S (mcols X).

  Lemma wf_nrows : nrows X' = n.
  Proof. unfold X', with_feature, nrows. cbn [mrows]. now apply app_rows_length. Qed.
  Lemma wf_row i : (i < n)%nat -> nth i (mrows X') [] = nth i (mrows X) [] ++ [nth i c 0].
  Proof. intros H. unfold X', with_feature. cbn [mrows]. now apply app_rows_nth. Qed.
  Lemma wf_wf : mwf X'.
  Proof.
    unfold mwf. apply Forall_forall. intros r Hr. destruct (In_nth _ _ [] Hr) as (i & Hi & <-).
    change (i < nrows X')%nat in Hi. rewrite wf_nrows in Hi. rewrite wf_row by exact Hi. rewrite app_length, (row_len X W) by exact Hi.
    unfold X', with_feature. cbn. lia.
  Qed.
  Lemma wf_aff f i : (i < n)%nat -> aff X' f i = aff X f i + f D * nth i c 0.
  Proof.
    intros H. unfold aff. rewrite wf_row by exact H. unfold X', with_feature at 1. cbn [mcols sumR]. rewrite Rplus_assoc. f_equal.
    pose proof (row_len X W i H) as L. rewrite app_nth2 by (fold n; lia). rewrite L, Nat.sub_diag. cbn [nth]. fold D. f_equal.
    apply sumR_ext. intros k Hk. now rewrite app_nth1 by lia.
  Qed.
  Definition ext (f : nat -> R) (b : R) (k : nat) : R := if (k <? D)%nat then f k else b.
  Lemma ext_aff f b i : (i < n)%nat -> aff X' (ext f b) i = aff X f i + b * nth i c 0.
  Proof.
    intros H. rewrite wf_aff by exact H. f_equal.
    - apply aff_ext. intros k Hk. unfold ext. fold D in Hk. apply Nat.ltb_lt in Hk. now rewrite Hk.
    - unfold ext. now rewrite Nat.ltb_irrefl.
  Qed.
  Lemma wf_sep : sep X' -> sep X.
  Proof.
    intros S g Hg k Hk. pose proof (S (ext g 0)) as K. specialize (fun H => K H k). unfold ext in K at 2. fold D in Hk.
    pose proof Hk as Hk'. apply Nat.ltb_lt in Hk'. rewrite Hk' in K. apply K.
    - intros i Hi. rewrite wf_nrows in Hi. rewrite ext_aff by exact Hi. rewrite (Hg i Hi). ring.
    - unfold X', with_feature. cbn [mcols]. fold D. lia.
  Qed.

  Variables (y p g : nat -> R).
  Let e i := nth i c 0 - aff X g i.
  Let s := sumR n (fun i => e i ^ 2).
  Let t := sumR n (fun i => e i * y i).
  Hypothesis Fp : fit X y p.
  Hypothesis Fg : fit X (fun i => nth i c 0) g.

  Lemma e_aff f : sumR n (fun i => e i * aff X f i) = 0.
  Proof. exact (Fg f). Qed.
  Lemma r_aff f : sumR n (fun i => (y i - aff X p i) * aff X f i) = 0.
  Proof. exact (Fp f). Qed.
  Lemma e_c : sumR n (fun i => e i * nth i c 0) = s.
  Proof.
    unfold s. transitivity (sumR n (fun i => e i ^ 2) + sumR n (fun i => e i * aff X g i)).
    - rewrite <- sumR_plus. apply sumR_ext. intros; unfold e; ring.
    - rewrite e_aff. ring.
  Qed.
  Lemma r_c : sumR n (fun i => (y i - aff X p i) * nth i c 0) = t.
  Proof.
    transitivity (t - sumR n (fun i => e i * aff X p i) + sumR n (fun i => (y i - aff X p i) * aff X g i)).
    - unfold t. rewrite <- sumR_minus, <- sumR_plus. apply sumR_ext. intros; unfold e; ring.
    - rewrite e_aff, r_aff. ring.
  Qed.
  Lemma r_e : sumR n (fun i => (y i - aff X p i) * e i) = t.
  Proof.
    transitivity (t - sumR n (fun i => e i * aff X p i)); [|rewrite e_aff; ring].
    unfold t. rewrite <- sumR_minus. apply sumR_ext. intros; ring.
  Qed.
  Lemma s_pos : sep X' -> 0 < s.
  Proof.
    intros S. assert (H0 : 0 <= s) by (apply sumR_ge0; intros; apply pow2_ge_0). destruct H0 as [|E]; [assumption|]. exfalso. symmetry in E.
    assert (Z : forall i, (i < n)%nat -> e i = 0).
    { intros i Hi. apply (sumR_zero_inv n _ (fun i _ => pow2_ge_0 _)) with (i := i) in E; auto. cbn beta in E. nra. }
    assert (K : ext (fun k => - g k) 1 D = 0).
    { apply S.
      - intros i Hi. rewrite wf_nrows in Hi. rewrite ext_aff by exact Hi. specialize (Z i Hi). unfold e in Z.
        rewrite (aff_ext X (fun k => - g k) (fun k => 0 * g k + (-1) * g k)) by (intros; ring). rewrite aff_lin. lra.
      - unfold X', with_feature. cbn [mcols]. fold D. lia. }
    unfold ext in K. rewrite Nat.ltb_irrefl in K. lra.
  Qed.
  Lemma feature_fit : s <> 0 -> fit X' y (ext (fun k => p k - t / s * g k) (t / s)).
  Proof.
    intros Hs h. rewrite wf_nrows.
    transitivity ((sumR n (fun i => (y i - aff X p i) * aff X h i) - t / s * sumR n (fun i => e i * aff X h i))
      + h D * (sumR n (fun i => (y i - aff X p i) * nth i c 0) - t / s * sumR n (fun i => e i * nth i c 0))).
    - rewrite <- !sumR_scal, <- !sumR_minus, <- sumR_scal, <- sumR_plus. apply sumR_ext. intros i Hi.
      rewrite ext_aff, wf_aff by exact Hi.
      rewrite (aff_ext X (fun k => p k - t / s * g k) (fun k => 1 * p k + (- (t / s)) * g k)) by (intros; ring). rewrite aff_lin. unfold e. ring.
    - rewrite e_aff, r_aff, r_c, e_c. field. exact Hs.
  Qed.
  Lemma feature_rss : s <> 0 -> sumR n (fun i => (y i - aff X' (ext (fun k => p k - t / s * g k) (t / s)) i) ^ 2) =
    sumR n (fun i => (y i - aff X p i) ^ 2) - t ^ 2 / s.
  Proof.
    intros Hs. transitivity (sumR n (fun i => (y i - aff X p i) ^ 2) - 2 * (t / s) * sumR n (fun i => (y i - aff X p i) * e i) + (t / s) ^ 2 * sumR n (fun i => e i ^ 2)).
    - generalize (t / s). intros b. rewrite <- !sumR_scal, <- sumR_minus, <- sumR_plus. apply sumR_ext. intros i Hi. rewrite ext_aff by exact Hi.
      rewrite (aff_ext X (fun k => p k - b * g k) (fun k => 1 * p k + (- b) * g k)) by (intros; ring). rewrite aff_lin. unfold e. ring.
    - rewrite r_e. fold s. field. exact Hs.
  Qed.
End Feature.

(** ** The statements *)
Section Learn.
  Variable solve : matrix R -> list R -> res (list R).
  Hypothesis Se : solver_exact solve.
  Variable X : matrix R.
  Hypothesis W : mwf X.
  Variable c : list R.
  Hypothesis Lc : length c = nrows X.

  Theorem feature_learns y q : learns solve (with_feature X c) y q ->
    exists p g, learns solve X y p /\ learns solve X c g /\
      let e := unexplained X c g in let s := sumR (nrows X) (fun i => e i ^ 2) in let t := sumR (nrows X) (fun i => e i * nth i y 0) in
      0 < s /\ q = map2 (fun pk gk => pk - t / s * gk) p g ++ [t / s] /\ rss (with_feature X c) y q = rss X y p - t ^ 2 / s.
  Proof.
    intros Hq. pose proof (wf_wf X c W Lc) as W'. pose proof (wf_nrows X c Lc) as N'.
    assert (Sp : length y = nrows (with_feature X c) /\ spans (with_feature X c)) by (apply (learns_iff _ W' solve Se); eauto).
    destruct Sp as (Ly & Sp). rewrite N' in Ly. pose proof (spans_sep _ W' Sp) as S'. pose proof (sep_spans X W (wf_sep X c W Lc S')) as Sx.
    destruct (proj2 (learns_iff X W solve Se y) (conj Ly Sx)) as (p & Hp). destruct (proj2 (learns_iff X W solve Se c) (conj Lc Sx)) as (g & Hg).
    exists p, g. split; [exact Hp|]. split; [exact Hg|].
    destruct (learns_fit X W solve _ _ (proj1 Se) Hp) as (_ & Lp & Fp). destruct (learns_fit X W solve _ _ (proj1 Se) Hg) as (_ & Lg & Fg).
    destruct (learns_fit _ W' solve _ _ (proj1 Se) Hq) as (_ & Lq & Fq). change (S (mcols (with_feature X c))) with (S (S (mcols X))) in Lq.
    assert (Ee : forall i, (i < nrows X)%nat -> unexplained X c g i = nth i c 0 - aff X (cf g) i).
    { intros i Hi. unfold unexplained. now rewrite (affine_aff X W) by exact Hi. }
    cbv zeta.
    rewrite (sumR_ext (nrows X) (fun i => unexplained X c g i ^ 2) (fun i => (nth i c 0 - aff X (cf g) i) ^ 2)) by (intros i Hi; now rewrite Ee by exact Hi).
    rewrite (sumR_ext (nrows X) (fun i => unexplained X c g i * nth i y 0) (fun i => (nth i c 0 - aff X (cf g) i) * cf y i)) by (intros i Hi; now rewrite Ee by exact Hi).
    pose proof (s_pos X c W Lc (cf g) S') as Hs.
    pose proof (feature_fit X c W Lc (cf y) (cf p) (cf g) Fp Fg (Rgt_not_eq _ _ Hs)) as Ff.
    pose proof (feature_rss X c W Lc (cf y) (cf p) (cf g) Fg (Rgt_not_eq _ _ Hs)) as Fr.
    set (s := sumR (nrows X) (fun i => (nth i c 0 - aff X (cf g) i) ^ 2)) in *.
    set (t := sumR (nrows X) (fun i => (nth i c 0 - aff X (cf g) i) * cf y i)) in *.
    assert (Eq : forall k, (k < S (S (mcols X)))%nat -> cf q k = ext X (fun k => cf p k - t / s * cf g k) (t / s) k)
      by (intros k Hk; exact (fit_unique _ (cf y) _ _ S' Fq Ff k Hk)).
    split; [exact Hs|]. split.
    - apply (list_ext_nth _ _ (S (S (mcols X)))); [exact Lq| |].
      + rewrite app_length, map2_length2 by lia. cbn [length]. lia.
      + intros k Hk. refine (eq_trans (Eq k Hk) _). unfold ext. destruct (Nat.ltb_spec k (S (mcols X))).
        * rewrite app_nth1 by (rewrite map2_length2; lia). rewrite map2_nth2 by lia. reflexivity.
        * rewrite app_nth2; rewrite map2_length2 by lia; [|lia]. rewrite Lp. replace (k - S (mcols X))%nat with 0%nat by lia. reflexivity.
    - unfold rss. rewrite N'. refine (eq_trans _ (eq_trans Fr _)).
      + apply sumR_ext. intros i Hi. rewrite (affine_aff _ W') by (rewrite N'; exact Hi). 
        assert (Ea : aff (with_feature X c) (cf q) i = aff (with_feature X c) (ext X (fun k => cf p k - t / s * cf g k) (t / s)) i) by (apply aff_ext; exact Eq).
        rewrite Ea. reflexivity.
      + f_equal. apply sumR_ext. intros i Hi. now rewrite (affine_aff X W) by exact Hi.
  Qed.
  Theorem feature_never_worse y p q : learns solve X y p -> learns solve (with_feature X c) y q ->
    rss (with_feature X c) y q <= rss X y p /\ (rss (with_feature X c) y q = rss X y p <-> q = p ++ [0]).
  Proof.
    intros Hp Hq. destruct (feature_learns y q Hq) as (p' & g & Hp' & Hg & K). cbv zeta in K.
    assert (p' = p) as ->. { specialize (Hp lr_default). specialize (Hp' lr_default). congruence. }
    destruct (learns_fit X W solve _ _ (proj1 Se) Hp) as (_ & Lp & _). destruct (learns_fit X W solve _ _ (proj1 Se) Hg) as (_ & Lg & _).
    destruct K as (Hs & Eq & Er). set (s := sumR _ (fun i => unexplained X c g i ^ 2)) in *. set (t := sumR _ (fun i => unexplained X c g i * nth i y 0)) in *.
    assert (0 <= t ^ 2 / s) by (apply Rmult_le_pos; [apply pow2_ge_0|left; now apply Rinv_0_lt_compat]).
    split; [lra|]. split.
    - intros E. assert (T : t = 0).
      { assert (Z : t ^ 2 / s = 0) by lra. assert (Z2 : t ^ 2 = 0) by (replace (t ^ 2) with (t ^ 2 / s * s) by (field; lra); rewrite Z; ring). nra. }
      rewrite Eq, T. replace (0 / s) with 0 by (unfold Rdiv; ring). f_equal. apply (list_ext_nth _ _ (length p)); auto.
      + apply map2_length2. lia.
      + intros k Hk. rewrite map2_nth2 by lia. ring.
    - intros E. rewrite E in Eq. apply app_inj_tail in Eq. destruct Eq as (_ & Z). rewrite Er.
      assert (t = 0) as ->. { replace t with (t / s * s) by (field; lra). rewrite <- Z. ring. } unfold Rdiv. ring.
  Qed.
  Theorem feature_trains y : (exists q, learns solve (with_feature X c) y q) <->
    length y = nrows X /\ spans X /\ ~ exists g, length g = S (mcols X) /\ forall i, (i < nrows X)%nat -> unexplained X c g i = 0.
  Proof.
    pose proof (wf_wf X c W Lc) as W'. pose proof (wf_nrows X c Lc) as N'. rewrite (learns_iff _ W' solve Se), N'. split.
    - intros (Ly & Sp). pose proof (spans_sep _ W' Sp) as S'. split; [exact Ly|]. split; [exact (sep_spans X W (wf_sep X c W Lc S'))|].
      intros (g & Lg & Hg). pose proof (s_pos X c W Lc (cf g) S') as K.
      rewrite (sumR_zero (nrows X)) in K; [lra|]. intros i Hi. specialize (Hg i Hi). unfold unexplained in Hg.
      rewrite (affine_aff X W) in Hg by exact Hi. rewrite Hg. ring.
    - intros (Ly & Sp & Hn). split; [exact Ly|]. apply (sep_spans _ W'). intros h Hh k Hk. rewrite N' in Hh.
      assert (Hd : h (S (mcols X)) = 0).
      { destruct (Req_dec (h (S (mcols X))) 0) as [|Hd]; auto. exfalso. apply Hn. exists (vec (S (mcols X)) (fun k => 0 * h k + - / h (S (mcols X)) * h k)).
        split; [apply vec_length|]. intros i Hi. unfold unexplained. rewrite (affine_aff X W), aff_vec, aff_lin by exact Hi.
        specialize (Hh i Hi). rewrite (wf_aff X c W Lc h i Hi) in Hh.
        apply (Rmult_eq_reg_l (h (S (mcols X)))); [|exact Hd]. transitivity (aff X h i + h (S (mcols X)) * nth i c 0); [field; exact Hd|]. rewrite Hh. ring. }
      change (k < S (S (mcols X)))%nat in Hk. destruct (Nat.eq_dec k (S (mcols X))) as [->|]; [exact Hd|].
      apply (spans_sep X W Sp); [|lia]. intros i Hi. specialize (Hh i Hi). rewrite (wf_aff X c W Lc h i Hi), Hd in Hh. lra.
  Qed.
  Theorem feature_uncorrelated y p q : (forall k, (k < mcols X)%nat -> sumR (nrows X) (fun i => (nth i c 0 - avg c) * nth k (nth i (mrows X) []) 0) = 0) ->
    learns solve X y p -> learns solve (with_feature X c) y q ->
    (forall k, (k < mcols X)%nat -> nth (S k) q 0 = nth (S k) p 0) /\
    nth (S (mcols X)) q 0 = sumR (nrows X) (fun i => (nth i c 0 - avg c) * nth i y 0) / sumR (nrows X) (fun i => (nth i c 0 - avg c) ^ 2).
  Proof.
    intros Hu Hp Hq. destruct (feature_learns y q Hq) as (p' & g & Hp' & Hg & K). cbv zeta in K.
    assert (p' = p) as ->. { specialize (Hp lr_default). specialize (Hp' lr_default). congruence. }
    destruct (learns_fit X W solve _ _ (proj1 Se) Hp) as (_ & Lp & _). destruct (learns_fit X W solve _ _ (proj1 Se) Hg) as (_ & Lg & Fg).
    assert (Sx : spans X) by (apply (learns_iff X W solve Se c); eauto).
    set (h := fun k : nat => if (k =? 0)%nat then avg c else 0).
    assert (Ah : forall i, aff X h i = avg c). { intros i. unfold aff, h. cbn [Nat.eqb]. rewrite sumR_zero by (intros; ring). ring. }
    assert (N0 : (0 < nrows X)%nat).
    { destruct (nrows X) eqn:E; [exfalso|lia]. assert (Z : sumR (nrows X) (fun i => unexplained X c g i ^ 2) = 0) by (rewrite E; reflexivity). rewrite E in *. cbn [sumR] in K. lra. }
    assert (Fh : fit X (cf c) h).
    { intros f. rewrite (sumR_ext _ _ (fun i => f 0%nat * (nth i c 0 - avg c) + sumR (mcols X) (fun k => f (S k) * ((nth i c 0 - avg c) * nth k (nth i (mrows X) []) 0)))).
      - rewrite sumR_plus, sumR_exch, sumR_scal. rewrite (sumR_zero (mcols X)).
        + rewrite sumR_minus, sumR_const. unfold avg. rewrite Lc. field. now apply not_0_INR, Nat.neq_0_lt_0.
        + intros k Hk. rewrite sumR_scal, Hu by exact Hk. ring.
      - intros i Hi. rewrite Ah. unfold aff, cf. rewrite Rmult_plus_distr_l, <- sumR_scal. f_equal; [ring|]. apply sumR_ext. intros; ring. }
    pose proof (fit_unique X _ _ _ (spans_sep X W Sx) Fg Fh) as Eg.
    assert (Ee : forall i, (i < nrows X)%nat -> unexplained X c g i = nth i c 0 - avg c).
    { intros i Hi. unfold unexplained. rewrite (affine_aff X W) by exact Hi. rewrite (aff_ext X (cf g) h i Eg), Ah. reflexivity. }
    rewrite (sumR_ext (nrows X) (fun i => unexplained X c g i ^ 2) (fun i => (nth i c 0 - avg c) ^ 2)) in K by (intros i Hi; now rewrite Ee by exact Hi).
    rewrite (sumR_ext (nrows X) (fun i => unexplained X c g i * nth i y 0) (fun i => (nth i c 0 - avg c) * nth i y 0)) in K by (intros i Hi; now rewrite Ee by exact Hi).
    destruct K as (Hs & -> & _). split.
    - intros k Hk. rewrite app_nth1 by (rewrite map2_length2; lia). rewrite map2_nth2 by lia.
      specialize (Eg (S k) ltac:(lia)). unfold cf, h in Eg. cbn [Nat.eqb] in Eg. rewrite Eg. ring.
    - rewrite app_nth2; rewrite map2_length2 by lia; [|lia]. rewrite Lp, Nat.sub_diag. reflexivity.
  Qed.
End Learn.

(** ** One feature *)
Section Single.
  Variable solve : matrix R -> list R -> res (list R).
  Hypothesis Se : solver_exact solve.
  Lemma single_wf xs : mwf (single xs).
  Proof. unfold mwf, single. apply Forall_forall. intros r H. cbn [mrows] in H. apply in_map_iff in H. destruct H as (x & <- & _). reflexivity. Qed.
  Lemma single_nrows xs : nrows (single xs) = length xs.
  Proof. unfold nrows, single. cbn [mrows]. apply map_length. Qed.
  Lemma single_aff xs f i : (i < length xs)%nat -> aff (single xs) f i = f 0%nat + f 1%nat * nth i xs 0.
  Proof. intros H. unfold aff, single. cbn [mcols mrows sumR]. rewrite (nth_map (fun x : R => [x]) xs i [] 0) by exact H. cbn [nth]. ring. Qed.
  Lemma dev_sum xs : (0 < length xs)%nat -> sumR (length xs) (fun i => nth i xs 0 - avg xs) = 0.
  Proof. intros H. rewrite sumR_minus, sumR_const. unfold avg. field. now apply not_0_INR, Nat.neq_0_lt_0. Qed.
  Lemma codev_raw xs ys : (0 < length xs)%nat -> length ys = length xs -> codev xs ys = sumR (length xs) (fun i => (nth i xs 0 - avg xs) * nth i ys 0).
  Proof.
    intros H L. unfold codev. transitivity (sumR (length xs) (fun i => (nth i xs 0 - avg xs) * nth i ys 0) - avg ys * sumR (length xs) (fun i => nth i xs 0 - avg xs)).
    - rewrite <- sumR_scal, <- sumR_minus. apply sumR_ext. intros; ring.
    - rewrite dev_sum by exact H. ring.
  Qed.
  Theorem single_trains xs ys : (exists p, learns solve (single xs) ys p) <-> length ys = length xs /\ exists a b, In a xs /\ In b xs /\ a <> b.
  Proof.
    rewrite (learns_iff _ (single_wf xs) solve Se), single_nrows. split; intros (L & H); (split; [exact L|]).
    - destruct xs as [|a xs].
      { exfalso. assert (K : [1; 0] = repeat 0 2) by (apply H; [reflexivity|intros r []]). injection K. lra. }
      destruct (Forall_Exists_dec (fun b => a = b) (fun b => Req_EM_T a b) xs) as [F|E].
      + exfalso. assert (K : [- a; 1] = repeat 0 2).
        { apply H; [reflexivity|]. intros r Hr. unfold single in Hr. cbn [mrows] in Hr. apply in_map_iff in Hr. destruct Hr as (x & <- & Hx).
          unfold affine. cbn. destruct Hx as [<-|Hx]; [lra|]. rewrite Forall_forall in F. rewrite <- (F x Hx). lra. }
        injection K. lra.
      + apply Exists_exists in E. destruct E as (b & Hb & Hn). exists a, b. repeat split; auto; [now left|now right].
    - destruct H as (a & b & Ha & Hb & Hn). intros q Lq Hq. cbn [mcols single] in Lq |- *. destruct q as [|u [|v [|? ?]]]; try discriminate.
      pose proof (Hq [a] ltac:(cbn; apply in_map_iff; eauto)) as A. pose proof (Hq [b] ltac:(cbn; apply in_map_iff; eauto)) as B.
      unfold affine in A, B. cbn in A, B. assert (V : v = 0). { apply (Rmult_eq_reg_r (a - b)); [lra|intros Z; apply Hn; lra]. } subst v. assert (u = 0) by lra. subst u. reflexivity.
  Qed.
  Theorem single_closed_form xs ys p : learns solve (single xs) ys p -> 0 < codev xs xs /\
    p = [avg ys - codev xs ys / codev xs xs * avg xs; codev xs ys / codev xs xs] /\
    rss (single xs) ys p = codev ys ys - codev xs ys ^ 2 / codev xs xs.
  Proof.
    intros H. assert (T : exists p, learns solve (single xs) ys p) by eauto. apply single_trains in T. destruct T as (L & a & b & Ha & Hb & Hn).
    assert (N0 : (0 < length xs)%nat) by (destruct xs; [destruct Ha|cbn; lia]).
    assert (S0 : 0 < codev xs xs).
    { assert (Q : 0 <= codev xs xs) by (apply sumR_ge0; intros; apply Rle_0_sqr). destruct Q as [|E]; [assumption|]. exfalso. symmetry in E.
      assert (Z : forall x, In x xs -> x = avg xs).
      { intros x Hx. destruct (In_nth _ _ 0 Hx) as (i & Hi & <-). unfold codev in E.
        apply (sumR_zero_inv (length xs)) with (i := i) in E; auto; [|intros; apply Rle_0_sqr]. cbn beta in E. apply Rsqr_0_uniq in E. lra. }
      apply Hn. rewrite (Z a Ha), (Z b Hb). reflexivity. }
    split; [exact S0|]. destruct (learns_fit _ (single_wf xs) solve _ _ (proj1 Se) H) as (_ & Lp & Fp). cbn [mcols single] in Lp.
    assert (Sx : spans (single xs)) by (apply (learns_iff _ (single_wf xs) solve Se ys); eauto).
    set (m := codev xs ys / codev xs xs). set (h := cf [avg ys - m * avg xs; m]).
    assert (D1 : sumR (length xs) (fun i => nth i ys 0 - avg ys) = 0) by (rewrite <- L; apply dev_sum; lia).
    assert (Rr : forall i, (i < length xs)%nat -> cf ys i - aff (single xs) h i = (nth i ys 0 - avg ys) - m * (nth i xs 0 - avg xs)).
    { intros i Hi. rewrite single_aff by exact Hi. unfold h, cf. cbn [nth]. ring. }
    assert (Fh : fit (single xs) (cf ys) h).
    { intros f. rewrite single_nrows.
      transitivity ((f 0%nat + f 1%nat * avg xs) * (sumR (length xs) (fun i => nth i ys 0 - avg ys) - m * sumR (length xs) (fun i => nth i xs 0 - avg xs))
        + f 1%nat * (codev xs ys - m * codev xs xs)).
      - unfold codev. rewrite <- !sumR_scal, <- !sumR_minus, <- !sumR_scal, <- sumR_plus. apply sumR_ext. intros i Hi. rewrite Rr, single_aff by exact Hi. ring.
      - rewrite D1, dev_sum by exact N0. unfold m. field. lra. }
    pose proof (fit_unique _ _ _ _ (spans_sep _ (single_wf xs) Sx) Fp Fh) as Eq.
    assert (Ep : p = [avg ys - m * avg xs; m]). { apply (list_ext_nth _ _ 2); auto. }
    split; [exact Ep|]. unfold rss. rewrite single_nrows.
    transitivity (codev ys ys - 2 * m * codev xs ys + m ^ 2 * codev xs xs).
    - unfold codev. rewrite L, <- !sumR_scal, <- sumR_minus, <- sumR_plus. apply sumR_ext. intros i Hi.
      rewrite (affine_aff _ (single_wf xs)) by (rewrite single_nrows; exact Hi). specialize (Rr i Hi). rewrite Ep. fold h. unfold cf in Rr at 1. rewrite Rr. ring.
    - unfold m. field. lra.
  Qed.
End Single.
