(** Lemmas for [Props_NetSum]. *)
From Coq Require Import List Arith Lia Bool Permutation Reals Lra FunctionalExtensionality.
From Verif Require Import Base BaseLemmas Num NumFn Linalg LinalgR Spec_Calc CalcR MatR Model_Rand Model_Toolkit Model_Optim Model_Cost
  Model_Regression Model_NNet Spec_Cost Spec_NNet Spec_NNetSym Proof_Order Proof_Order2 Proof_Toolkit Proof_Cost Proof_Equiv Proof_NNet Proof_NNet2 Proof_NNet3 Proof_NNet4 Proof_NNet5
  Proof_NNetSym Proof_NNetSym2 Proof_Flat Spec_Flip Proof_Flip Proof_Flip2 Proof_Repeat Spec_NetSum.
Import ListNotations.
Local Open Scope R_scope.

(** ** The costs are means over the samples *)
Definition mse_one (o t : list R) : R := vsum (map2 nmul (map2 nsub o t) (map2 nsub o t)) / 2.
Definition ce_one (o t : list R) : R := - vsum (map2 nadd (map2 nmul t (map nln o)) (map2 nmul (map (fun x => (- x + nonev)%num) t) (map nln (map (fun x => (- x + nonev)%num) o)))).
Lemma vsum_over {A} (f : A -> R) l : vsum (map f l) = total_over f l.
Proof. unfold total_over. rewrite vsum_R. reflexivity. Qed.
Lemma over_scal {A} (f : A -> R) k l : total_over (fun a => k * f a) l = k * total_over f l.
Proof. unfold total_over. induction l as [|a l IH]; cbn; [ring|]. rewrite IH. ring. Qed.
Lemma over_ext {A} (f g : A -> R) l : (forall a, In a l -> f a = g a) -> total_over f l = total_over g l.
Proof. unfold total_over. intros H. f_equal. apply map_ext_in, H. Qed.
Lemma mse_mean c (g : sample -> list R) l : mse_cost (Mat (map g l) c) (ts_of c l) = Ok (total_over (fun p => mse_one (g p) (snd p)) l / INR (length l)).
Proof.
  unfold mse_cost, ts_of, same_shape, msum, mzip, nrows. cbn [mrows mcols]. rewrite !map_length, !Nat.eqb_refl. cbn [andb rassert]. rewrite !map2_maps, !map_map, !map_length. f_equal.
  rewrite vsum_over. set (h := fun x : sample => @vsum R NumR _).
  rewrite (over_ext (fun p => mse_one (g p) (snd p)) (fun p => / 2 * h p)) by (intros; apply Rmult_comm).
  rewrite over_scal. cbn [ndiv nmul nadd nonev NumR nofnat]. unfold Rdiv. replace (1 + 1) with 2 by ring. rewrite Rinv_mult. ring.
Qed.
Lemma ce_mean c (g : sample -> list R) l : ce_cost (Mat (map g l) c) (ts_of c l) = Ok (total_over (fun p => ce_one (g p) (snd p)) l / INR (length l)).
Proof.
  unfold ce_cost, ts_of, same_shape, msum, mzip, mmap, nrows. cbn [mrows mcols]. rewrite !map_length, !Nat.eqb_refl. cbn [andb rassert]. rewrite !map_map, !map2_maps, !map_map. f_equal.
  rewrite vsum_over. match goal with |- (- total_over ?a l / _)%num = _ => set (h := a) end.
  rewrite (over_ext (fun p => ce_one (g p) (snd p)) (fun p => -1 * h p)).
  - rewrite over_scal. change (- total_over h l / INR (length l) = -1 * total_over h l / INR (length l)). unfold Rdiv. ring.
  - intros p _. unfold ce_one, h. rewrite !map_map. ring.
Qed.

(** ** Derivatives of sums *)
Lemma over_deriv {A} (f : A -> R -> R) (d : A -> R) x (l : list A) : (forall a, In a l -> derivable_pt_lim (f a) x (d a)) ->
  derivable_pt_lim (fun t => total_over (fun a => f a t) l) x (total_over d l).
Proof.
  unfold total_over. induction l as [|a l IH]; intros H; cbn; [apply derivable_pt_lim_const|].
  apply (derivable_pt_lim_plus (f a) (fun t => fold_right Rplus 0 (map (fun a => f a t) l))); [apply H; now left|]. apply IH. intros; apply H; now right.
Qed.

Section Net.
  Context (net : BaseNeuralNet R) (ks : list (LayerKind R)) (d c : nat).
  Hypothesis HL : nn_layers net = map to_layer ks.
  Hypothesis Ne : ks <> [].
  Hypothesis Sm : Forall smooth_kind ks.
  Hypothesis Hw : widths ks d = Some c.
  Hypothesis HC : proper_criterion net ks RegNone.
  Let n := total_params ks.

  Lemma one_loss : exists f : list R -> list R -> R, forall (g : sample -> list R) l, cr_cost (nn_criterion net) (Mat (map g l) c) (ts_of c l) = Ok (total_over (fun p => f (g p) (snd p)) l / INR (length l)).
  Proof. destruct HC as [-> | [-> _]]; [exists mse_one|exists ce_one]; intros; [apply mse_mean|apply ce_mean]. Qed.
  Lemma xs_wf l : samples_fit d c l -> mwf (xs_of d l) /\ mwf (ts_of c l) /\ nrows (xs_of d l) = length l /\ nrows (ts_of c l) = length l.
  Proof.
    intros H. unfold samples_fit in H. rewrite Forall_forall in H. unfold mwf, xs_of, ts_of, nrows. cbn. rewrite !map_length, !Forall_forall. repeat split; auto; intros r Hr; apply in_map_iff in Hr; destruct Hr as (p & <- & Hp); now apply H.
  Qed.
  Lemma cost_mean : exists f : list R -> sample -> R, forall w l, length w = n -> samples_fit d c l ->
    data_cost net (xs_of d l) (ts_of c l) w = Ok (total_over (f w) l / INR (length l)).
  Proof.
    destruct one_loss as (f & Hf). exists (fun w p => f (net_row ks w (fst p)) (snd p)). intros w l Lw F. destruct (xs_wf l F) as (W & _).
    unfold data_cost. rewrite (predict_rows (set_weights net w) ks (xs_of d l) c) by auto. cbn [rbind nn_weights set_weights xs_of mrows]. rewrite map_map. apply Hf.
  Qed.
  Lemma grad_on w l : length w = n -> samples_fit d c l -> l <> [] -> exists dc g, data_cost net (xs_of d l) (ts_of c l) w = Ok dc /\
    net_compute_grad net w (xs_of d l) (ts_of c l) = Ok (dc, g) /\ length g = n /\
    forall q, (q < n)%nat -> exists e, has_partial_vec (data_cost net (xs_of d l) (ts_of c l)) w q e /\ nth q g 0 = INR (length l) * e.
  Proof.
    intros Lw F L0. destruct (xs_wf l F) as (W & WT & N & NT).
    destruct (gradient_times_rows net ks w (xs_of d l) (ts_of c l) c RegNone) as (dc & g & E1 & E2 & Lg & HG); auto; try lia.
    - destruct l; [contradiction|]. cbn. lia.
    - now apply (proper_between net ks RegNone [] [] d c HL (orders_fit_nil ks) Hw HC).
    - exists dc, g. cbn [reg_cost] in E2. change (@nzero R NumR) with 0 in E2. rewrite Rplus_0_r in E2. repeat split; auto; [lia|]. rewrite <- Lw. intros q Hq.
      destruct (HG q Hq) as (e & He & ->). exists e. split; [exact He|]. rewrite reg_none_entry, N. ring.
  Qed.

  Theorem net_gradient_sum w l : length w = n -> samples_fit d c l -> l <> [] -> exists G : sample -> R * list R,
    (forall p, In p l -> net_compute_grad net w (xs_of d [p]) (ts_of c [p]) = Ok (G p) /\ length (snd (G p)) = n) /\
    net_compute_grad net w (xs_of d l) (ts_of c l) = Ok (total_over (fun p => fst (G p)) l / INR (length l),
      map (fun q => total_over (fun p => nth q (snd (G p)) 0) l) (seq 0 n)).
  Proof.
    intros Lw F L0. destruct cost_mean as (f & Hf). pose proof F as F'. unfold samples_fit in F'. rewrite Forall_forall in F'.
    assert (F1 : forall p, In p l -> samples_fit d c [p]) by (intros p Hp; constructor; auto).
    assert (N0 : INR (length l) <> 0) by (apply not_0_INR; destruct l; [contradiction|discriminate]).
    exists (fun p => match net_compute_grad net w (xs_of d [p]) (ts_of c [p]) with Ok z => z | _ => (0, []) end). split.
    - intros p Hp. destruct (grad_on w [p] Lw (F1 p Hp) ltac:(discriminate)) as (dc & g & _ & E & Lg & _). rewrite E. auto.
    - destruct (grad_on w l Lw F L0) as (dc & g & D & E & Lg & HG). rewrite E. rewrite Hf in D by auto. injection D as <-. do 2 f_equal.
      + f_equal. apply over_ext. intros p Hp. destruct (grad_on w [p] Lw (F1 p Hp) ltac:(discriminate)) as (dp & gp & Dp & Ep & _). rewrite Ep. cbn [fst]. rewrite Hf in Dp by auto. injection Dp as <-. unfold total_over. cbn. field.
      + apply (nth_ext _ _ 0 0); [rewrite map_length, seq_length; lia|]. rewrite Lg. intros q Hq. destruct (HG q Hq) as (e & (h & H1 & H2) & ->).
        rewrite (nth_indep _ 0 (total_over (fun p => nth 0 (snd match net_compute_grad net w (xs_of d [p]) (ts_of c [p]) with Ok z => z | _ => (0, []) end) 0) l)) by (rewrite map_length, seq_length; lia).
        rewrite (map_nth (fun q => total_over _ l)), seq_nth by auto. cbn [Nat.add].
        set (D := fun p => nth q (snd match net_compute_grad net w (xs_of d [p]) (ts_of c [p]) with Ok z => z | _ => (0, []) end) 0).
        assert (P : derivable_pt_lim (fun t => total_over (fun p => f (vset w q t) p) l) (nth q w 0) (total_over D l)).
        { apply over_deriv. intros p Hp. destruct (grad_on w [p] Lw (F1 p Hp) ltac:(discriminate)) as (dp & gp & _ & Ep & _ & HGp). unfold D. rewrite Ep. cbn [snd].
          destruct (HGp q Hq) as (ep & (hp & P1 & P2) & ->). cbn [length INR]. rewrite Rmult_1_l. replace (fun t => f (vset w q t) p) with hp; [exact P2|].
          apply functional_extensionality. intros t. specialize (P1 t). rewrite Hf in P1 by (rewrite ?vset_length; auto). injection P1 as P1. rewrite <- P1. unfold total_over. cbn. field. }
        apply (uniqueness_limite (fun t => total_over (fun p => f (vset w q t) p) l) (nth q w 0)); [|exact P].
        replace (fun t => total_over (fun p => f (vset w q t) p) l) with (mult_real_fct (INR (length l)) h); [now apply derivable_pt_lim_scal|].
        apply functional_extensionality. intros t. unfold mult_real_fct. specialize (H1 t). rewrite Hf in H1 by (rewrite ?vset_length; auto). injection H1 as <-. change (fun p : sample => f (vset w q t) p) with (f (vset w q t)). field. exact N0.
  Qed.

  Lemma over_perm {A} (f : A -> R) l l' : Permutation l l' -> total_over f l = total_over f l'.
  Proof. unfold total_over. induction 1; cbn; lra. Qed.
  Lemma over_times {A} (f : A -> R) k l : total_over f (times k l) = INR k * total_over f l.
  Proof. unfold total_over. rewrite times_map. apply times_sum. Qed.
  Theorem net_gradient_repeat w k l l' : length w = n -> samples_fit d c l -> l <> [] -> (0 < k)%nat -> Permutation l' (times k l) -> exists cost g,
    net_compute_grad net w (xs_of d l) (ts_of c l) = Ok (cost, g) /\ length g = n /\
    net_compute_grad net w (xs_of d l') (ts_of c l') = Ok (cost, map (Rmult (INR k)) g).
  Proof.
    intros Lw F L0 K P.
    assert (I : forall p, In p l' <-> In p l).
    { intros p. split; intros H.
      - apply (Permutation_in p P) in H. unfold times in H. apply in_concat in H. destruct H as (z & Hz & Hp). apply repeat_spec in Hz. now subst.
      - apply (Permutation_in p (Permutation_sym P)). destruct k; [lia|]. cbn. apply in_or_app. now left. }
    assert (F' : samples_fit d c l') by (unfold samples_fit in *; rewrite Forall_forall in *; intros p Hp; apply F, I, Hp).
    assert (L0' : l' <> []). { intros ->. destruct l as [|p l]; [contradiction|]. apply (proj2 (I p)). now left. }
    destruct (net_gradient_sum w l Lw F L0) as (G & HG & E). destruct (net_gradient_sum w l' Lw F' L0') as (G' & HG' & E').
    assert (GG : forall p, In p l -> G' p = G p). { intros p Hp. destruct (HG p Hp) as (H1 & _). destruct (HG' p (proj2 (I p) Hp)) as (H2 & _). rewrite H1 in H2. now injection H2. }
    assert (S : forall h : R * list R -> R, total_over (fun p => h (G' p)) l' = INR k * total_over (fun p => h (G p)) l).
    { intros h. rewrite (over_perm _ _ _ P), over_times. f_equal. apply over_ext. intros p Hp. now rewrite GG. }
    eexists _, _. split; [exact E|]. split; [rewrite map_length; apply seq_length|]. rewrite E'. do 2 f_equal.
    - rewrite (S fst), (Permutation_length P), times_length. now apply div_times.
    - rewrite map_map. apply map_ext. intros q. apply (S (fun z => nth q (snd z) 0)).
  Qed.
  Theorem net_train_repeat alpha iters k l l' : length (nn_weights net) = n -> samples_fit d c l -> l <> [] -> (0 < k)%nat -> Permutation l' (times k l) ->
    net_train (gd_as_optimizer {| gd_alpha := alpha / INR k; gd_iters := iters |}) net (xs_of d l') (ts_of c l') =
    net_train (gd_as_optimizer {| gd_alpha := alpha; gd_iters := iters |}) net (xs_of d l) (ts_of c l).
  Proof.
    intros Lw F L0 K P. unfold net_train, gd_as_optimizer, gd_optimize. cbn [gd_alpha gd_iters]. do 2 f_equal.
    apply (gd_loop_scaled alpha (alpha / INR k) (INR k) (fun w => net_compute_grad net w (xs_of d l) (ts_of c l)) (fun w => net_compute_grad net w (xs_of d l') (ts_of c l')) n); auto.
    - apply pos_INR.
    - field. apply INR_pos, K.
    - intros w Hlw. destruct (net_gradient_repeat w k l l' Hlw F L0 K P) as (u & g & E1 & Lg & E2). exists u, g. auto.
  Qed.
End Net.
