(** Lemmas for [Props_NaNSVM]. *)
From Coq Require Import List Arith Lia Bool.
From Flocq Require Import Core BinarySingleNaN.
From Verif Require Import Base BaseLemmas Num NumF NumFn NumSign NumOrd Linalg LinalgR Model_Optim Model_Regression Model_Kernel Model_GP Model_SVM Spec_SVM Proof_SVM
  Spec_NaN Proof_NaN Spec_NaNReg Proof_NaNReg Spec_NaNSVM.
Import ListNotations.

Lemma sign_nan (d : B64) : nnan d = true -> nnan (nsignum d) = true.
Proof. intro H. unfold nsignum. now rewrite H. Qed.
Lemma has_nan_cons x (r : list B64) : has_nan r -> has_nan (x :: r).
Proof. intros (j & Hj & H). exists (S j). cbn. split; [lia|exact H]. Qed.
Lemma with_ones_row (D : matrix B64) i : i < nrows D -> nth i (mrows (with_ones D)) [] = nonev :: nth i (mrows D) [].
Proof.
  intro Hi. unfold with_ones. cbn [mrows]. rewrite (nth_indep _ _ (nonev :: [])) by (now rewrite map_length). apply (map_nth (cons nonev)).
Qed.
Lemma hits_none test j : (forall t i, test t i = false) -> forall draws t, hits test j t draws = 0.
Proof. intros H. induction draws as [|i d IH]; intros t; cbn [hits]; [reflexivity|]. now rewrite H, andb_false_r, IH. Qed.

Section SVM.
  Variables (ker : Kernel B64) (k : list B64 -> list B64 -> B64) (self self' : SVM B64) (D : matrix B64) (y : list B64).
  Hypothesis W : mwf D.
  Hypothesis Hk : ker_on ker k (S (mcols D)).
  Hypothesis Hp : passes_nan k (S (mcols D)).
  Hypothesis Ly : length y = nrows D.
  Hypothesis HO : outcome (svm_train ker self D y) (Some self').

  Lemma train_parts : exists draws alpha, svm_alpha self' = Some alpha /\ length alpha = nrows D /\ Forall (fun i => i < nrows D) draws /\
    (forall j, j < nrows D -> nth j alpha nzero = ndiv (ones (hits (code_test k (svm_lambda self) (mrows (with_ones D)) y) j 0 draws)) (nofnat (svm_optim_iters self))) /\
    svm_train_inputs self' = Some (with_ones D) /\ svm_train_targets self' = Some y /\ svm_lambda self' = svm_lambda self.
  Proof.
    destruct (svm_train_out ker k self D y (Some self') W Hk HO) as [[E _]|(draws & alpha & s & E & Ld & Fd & Ea & La & Hn & Ei & Et & El & _)]; [discriminate|].
    injection E as ->. exists draws, alpha. auto 10.
  Qed.
  Lemma svm_query P : 0 < nrows D -> mwf P -> mcols P = mcols D -> exists out, svm_predict ker self' P = Ok out /\ nan_rows P out.
  Proof.
    intros H0 WP CP. destruct train_parts as (draws & alpha & Ea & La & _ & _ & Ei & Et & El).
    assert (NO := with_ones_nrows D).
    erewrite (svm_predict_val ker k self' alpha (with_ones D) y P); try eassumption; [|now apply with_ones_wf|cbn; congruence|congruence|congruence].
    eexists. split; [reflexivity|]. split; [now rewrite map_length|]. intros i Hi HN.
    match goal with |- context [map ?f (mrows P)] => rewrite (nth_map f (mrows P) i nzero []) by exact Hi end.
    apply sign_nan, (nan_dot _ _ 0).
    - rewrite map_length. fold (nrows (with_ones D)). lia.
    - unfold velemul. rewrite map_length, map2_length. lia.
    - left. rewrite (nth_map (k (nonev :: nth i (mrows P) [])) (mrows (with_ones D)) 0 nzero []) by (fold (nrows (with_ones D)); lia).
      apply Hp.
      + cbn. rewrite (wf_row P i WP Hi). congruence.
      + rewrite with_ones_row by exact H0. cbn. now rewrite (wf_row D 0 W H0).
      + left. now apply has_nan_cons.
  Qed.
  Lemma svm_all_nan P : tainted D y -> mwf P -> mcols P = mcols D -> exists out, svm_predict ker self' P = Ok out /\ length out = nrows P /\ all_nan out.
  Proof.
    intros (t & Ht & HT) WP CP. destruct train_parts as (draws & alpha & Ea & La & _ & _ & Ei & Et & El).
    assert (NO := with_ones_nrows D).
    erewrite (svm_predict_val ker k self' alpha (with_ones D) y P); try eassumption; [|now apply with_ones_wf|cbn; congruence|congruence|congruence].
    eexists. split; [reflexivity|]. split; [now rewrite map_length|]. apply Forall_forall. intros x Hx. apply in_map_iff in Hx. destruct Hx as (r & <- & Hr).
    assert (Lr : length r = mcols P) by (unfold mwf in WP; rewrite Forall_forall in WP; auto).
    assert (Lv : length (velemul alpha y) = nrows D) by (unfold velemul; rewrite map2_length; lia).
    apply sign_nan, (nan_dot _ _ t).
    - rewrite map_length. fold (nrows (with_ones D)). lia.
    - rewrite map_length. lia.
    - destruct HT as [HT|HT]; [left|right].
      + rewrite (nth_map (k (nonev :: r)) (mrows (with_ones D)) t nzero []) by (fold (nrows (with_ones D)); lia). rewrite with_ones_row by exact Ht.
        apply Hp; cbn; [congruence|now rewrite (wf_row D t W Ht)|right; now apply has_nan_cons].
      + rewrite (nth_map (fun w => ndiv w (svm_lambda self')) (velemul alpha y) t nzero nzero) by lia. apply nan_div. left.
        unfold velemul. rewrite map2_nth with (da := nzero) (db := nzero) by lia. apply nan_mul. now right.
  Qed.
  (** No step passes the test. *)
  Lemma svm_learns_nothing t : t < nrows D -> has_nan (nth t (mrows D) []) ->
    svm_alpha self' = Some (repeat (ndiv nzero (nofnat (svm_optim_iters self))) (nrows D)).
  Proof.
    intros Ht HT. destruct train_parts as (draws & alpha & Ea & La & Fd & Hn & _). assert (NO := with_ones_nrows D). rewrite Ea. f_equal.
    apply (nth_ext _ _ nzero nzero); [now rewrite repeat_length|]. intros j Hj. rewrite La in Hj. rewrite (Hn j Hj). rewrite (nth_indep (repeat _ _) nzero (ndiv nzero (nofnat (svm_optim_iters self)))) by (now rewrite repeat_length). rewrite nth_repeat.
    assert (Z : forall i, i < nrows D -> forall u, code_test k (svm_lambda self) (mrows (with_ones D)) y u i = false).
    { intros i Hi u. unfold code_test. apply nan_lt_l, nan_div. left. apply nan_mul. left. apply nan_vsum. rewrite with_ones_row by exact Hi.
      exists (k (nonev :: nth i (mrows D) []) (nonev :: nth t (mrows D) [])). split.
      - apply in_map. rewrite <- (with_ones_row D t Ht). apply nth_In. fold (nrows (with_ones D)). lia.
      - apply Hp; [cbn; now rewrite (wf_row D i W Hi)|cbn; now rewrite (wf_row D t W Ht)|right; now apply has_nan_cons]. }
    assert (H0 : forall dr u, Forall (fun i => i < nrows D) dr -> hits (code_test k (svm_lambda self) (mrows (with_ones D)) y) j u dr = 0).
    { induction dr as [|i dr IH]; intros u F; [reflexivity|]. inversion F; subst. cbn [hits]. rewrite Z by assumption. rewrite andb_false_r. now rewrite IH. }
    now rewrite H0.
  Qed.
End SVM.

(** ** The kernels of the toolkit *)
Lemma dot_nan (x y : list B64) dim : length x = dim -> length y = dim -> has_nan x \/ has_nan y -> nnan (dot x y) = true.
Proof. intros Lx Ly [(j & Hj & H)|(j & Hj & H)]; apply (nan_dot _ _ j); auto; lia. Qed.
Lemma sub_has_nan (x y : list B64) : length x = length y -> has_nan x \/ has_nan y -> has_nan (vsub x y).
Proof.
  intros L H. destruct (sub_nan x y L H) as (j & Hj & Q). exists j. unfold vsub. rewrite map2_length. split; [lia|].
  now rewrite map2_nth with (da := nzero) (db := nzero) by lia.
Qed.
Lemma sq_nan (x y : list B64) dim : length x = dim -> length y = dim -> has_nan x \/ has_nan y -> nnan (dot (vsub x y) (vsub x y)) = true.
Proof. intros Lx Ly H. assert (Q : length x = length y) by congruence. apply (dot_nan _ _ (length (vsub x y))); auto. left. now apply sub_has_nan. Qed.
Lemma norm_nan (x y : list B64) dim : length x = dim -> length y = dim -> has_nan x \/ has_nan y -> nnan (Linalg.norm2 (vsub x y)) = true.
Proof. intros Lx Ly H. apply nan_sqrt. exact (sq_nan x y dim Lx Ly H). Qed.

Section Kernels.
  Context {NF : NumFn B64}.
  Hypothesis L : libm_kernel_nan.
  Definition good (ker : Kernel B64) : Prop := forall dim, exists k, ker_on ker k dim /\ passes_nan k dim.
  Lemma good_linear c : good (k_linear c).
  Proof.
    intro dim. exists (fun x y => nadd (dot x y) c). split; [intros x y _ _; reflexivity|]. intros x y Lx Ly H. apply nan_add. left. exact (dot_nan x y dim Lx Ly H).
  Qed.
  Lemma good_polynomial a c d : neqb d nzero = false -> good (k_polynomial a c d).
  Proof.
    intros Hd dim. exists (fun x y => npowf (nadd (nmul a (dot x y)) c) d). split; [intros x y _ _; reflexivity|]. intros x y Lx Ly H.
    apply L; [|exact Hd]. apply nan_add. left. apply nan_mul. right. exact (dot_nan x y dim Lx Ly H).
  Qed.
  Lemma good_hyper_tan a c : good (k_hyper_tan a c).
  Proof.
    intros dim. exists (fun x y => ntanh (nadd (nmul a (dot x y)) c)). split; [intros x y _ _; reflexivity|]. intros x y Lx Ly H.
    apply L. apply nan_add. left. apply nan_mul. right. exact (dot_nan x y dim Lx Ly H).
  Qed.
  Lemma good_squared_exp ls a : good (k_squared_exp ls a).
  Proof.
    intros dim. exists (fun x y => nmul a (nexp (ndiv (nopp (dot (vsub x y) (vsub x y))) (nmul (nmul two ls) ls)))). split.
    - intros x y Lx Ly. unfold k_squared_exp, rvsub. rewrite Lx, Ly, Nat.eqb_refl. reflexivity.
    - intros x y Lx Ly H. apply nan_mul. right. apply L. apply nan_div. left. apply nan_opp. exact (sq_nan x y dim Lx Ly H).
  Qed.
  Lemma good_exponential ls a : good (k_exponential ls a).
  Proof.
    intros dim. exists (fun x y => nmul a (nexp (ndiv (nopp (Linalg.norm2 (vsub x y))) (nmul (nmul two ls) ls)))). split.
    - intros x y Lx Ly. unfold k_exponential, rvsub. rewrite Lx, Ly, Nat.eqb_refl. reflexivity.
    - intros x y Lx Ly H. apply nan_mul. right. apply L. apply nan_div. left. apply nan_opp. exact (norm_nan x y dim Lx Ly H).
  Qed.
  Lemma good_multiquadric c : good (k_multiquadric c).
  Proof.
    intros dim. exists (fun x y => nsqrt (nadd (nmul (Linalg.norm2 (vsub x y)) (Linalg.norm2 (vsub x y))) (nmul c c))). split.
    - intros x y Lx Ly. unfold k_multiquadric, rvsub. rewrite Lx, Ly, Nat.eqb_refl. reflexivity.
    - intros x y Lx Ly H. apply nan_sqrt, nan_add. left. apply nan_mul. left. exact (norm_nan x y dim Lx Ly H).
  Qed.
  Lemma good_rational_quadratic a ls : neqb (nopp a) nzero = false -> good (k_rational_quadratic a ls).
  Proof.
    intros Ha dim. exists (fun x y => npowf (nadd nonev (ndiv (dot (vsub x y) (vsub x y)) (nmul (nmul (nmul two a) ls) ls))) (nopp a)). split.
    - intros x y Lx Ly. unfold k_rational_quadratic, rvsub. rewrite Lx, Ly, Nat.eqb_refl. reflexivity.
    - intros x y Lx Ly H. apply L; [|exact Ha]. apply nan_add. right. apply nan_div. left. exact (sq_nan x y dim Lx Ly H).
  Qed.
  Theorem kernels_pass_nan : forall (c a d ls : B64) dim, neqb d nzero = false -> neqb (nopp a) nzero = false ->
    forall ker, In ker [k_linear c; k_polynomial a c d; k_squared_exp ls a; k_exponential ls a; k_hyper_tan a c; k_multiquadric c; k_rational_quadratic a ls] ->
    exists k, ker_on ker k dim /\ passes_nan k dim.
  Proof.
    intros c a d ls dim Hd Ha ker H. cbn [In] in H.
    destruct H as [<-|[<-|[<-|[<-|[<-|[<-|[<-|[]]]]]]]].
    - apply good_linear.
    - now apply good_polynomial.
    - apply good_squared_exp.
    - apply good_exponential.
    - apply good_hyper_tan.
    - apply good_multiquadric.
    - now apply good_rational_quadratic.
  Qed.
End Kernels.
