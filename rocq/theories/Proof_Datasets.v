(** * Facts about the bundled data sets *)
From Coq Require Import List Arith Lia Bool Reals Lra.
From Verif Require Import Base BaseLemmas Num NumFn Linalg LinalgR Euclid Model_Datasets Spec_Datasets Model_Toolkit Proof_Toolkit Model_Optim Model_Regression Spec_Regression Proof_Regression
  Model_KNN Model_History Spec_KNN2 Proof_KNN2 Proof_KMeans Spec_Separable Proof_Separable Spec_Succeeds.
Import ListNotations.

(** ** Shapes *)
Definition row_ok (r : list nat) : bool := (length r =? 4)%nat.
Lemma table_ok : forallb row_ok iris_table = true. Proof. vm_compute. reflexivity. Qed.
Lemma table_len : length iris_table = 150. Proof. vm_compute. reflexivity. Qed.
Lemma iris_shape {F} {N : Num F} : mwf (ds_data (@iris_load F N)) /\ nrows (ds_data (@iris_load F N)) = 150 /\ mcols (ds_data (@iris_load F N)) = 4 /\
  length (ds_target (@iris_load F N)) = 150 /\ forall i, i < 150 -> nth i (ds_target (@iris_load F N)) 0 = i / 50.
Proof.
  split; [|split; [|split; [|split]]].
  - unfold mwf, iris_load. cbn [ds_data mrows mcols]. apply Forall_forall. intros r Hr. apply in_map_iff in Hr. destruct Hr as (t & <- & Ht). rewrite map_length.
    pose proof table_ok as Q. rewrite forallb_forall in Q. specialize (Q t Ht). now apply Nat.eqb_eq in Q.
  - unfold nrows, iris_load. cbn [ds_data mrows]. now rewrite map_length, table_len.
  - reflexivity.
  - reflexivity.
  - cbn [iris_load ds_target]. assert (Q : forallb (fun i => nth i iris_species 0 =? i / 50) (seq 0 150) = true) by (vm_compute; reflexivity).
    rewrite forallb_forall in Q. intros i Hi. apply Nat.eqb_eq, Q, in_seq. lia.
Qed.
Lemma trees_shape {F} {N : Num F} : mwf (ds_data (@trees_load F N)) /\ nrows (ds_data (@trees_load F N)) = 31 /\ mcols (ds_data (@trees_load F N)) = 2 /\
  length (ds_target (@trees_load F N)) = 31.
Proof.
  split; [|repeat split; unfold nrows, trees_load; cbn [ds_data ds_target mrows]; rewrite map_length; reflexivity].
  unfold mwf, trees_load. cbn [ds_data mrows mcols]. apply Forall_forall. intros r Hr. apply in_map_iff in Hr. destruct Hr as (t & <- & Ht). reflexivity.
Qed.

Local Open Scope R_scope.
Lemma tenths_R k : @tenths R NumR k = INR k / 10.
Proof. unfold tenths. cbn [ndiv nofnat NumR]. replace (INR 10) with 10 by (cbn; lra). reflexivity. Qed.
Lemma iris_row i : (i < 150)%nat -> exists a b c d, nth i iris_table [] = [a; b; c; d] /\ nth i (mrows iris_X) [] = [INR a / 10; INR b / 10; INR c / 10; INR d / 10].
Proof.
  intros Hi. pose proof table_ok as Q. rewrite forallb_forall in Q. rewrite <- table_len in Hi. specialize (Q (nth i iris_table []) (nth_In _ _ Hi)).
  unfold row_ok in Q. apply Nat.eqb_eq in Q. unfold iris_X, iris_load. cbn [ds_data mrows]. rewrite (nth_map (map tenths) _ _ _ []) by exact Hi.
  destruct (nth i iris_table []) as [|a [|b [|c [|d [|]]]]]; try discriminate. exists a, b, c, d. split; auto. cbn [map]. now rewrite !tenths_R.
Qed.

(** ** One nearest neighbour *)
Fixpoint eqb_row (a b : list nat) : bool :=
  match a, b with [], [] => true | x :: a', y :: b' => (x =? y)%nat && eqb_row a' b' | _, _ => false end.
Lemma eqb_row_refl a : eqb_row a a = true. Proof. induction a; cbn; auto. now rewrite Nat.eqb_refl. Qed.
Lemma same_row_same_target : forallb (fun i => forallb (fun j => negb (eqb_row (nth i iris_table []) (nth j iris_table [])) || (nth i iris_species 0 =? nth j iris_species 0)%nat) (seq 0 150)) (seq 0 150) = true.
Proof. vm_compute. reflexivity. Qed.
Lemma tenth_inj a b : INR a / 10 = INR b / 10 -> a = b.
Proof. intros H. apply INR_eq. lra. Qed.
Theorem iris_recall (s0 : option (matrix R)) (t0 : option (list nat)) :
  exists c', knn_train brute_builder {| knn_k := 1; knn_searcher := s0; knn_target := t0 |} iris_X (ds_target (@iris_load R NumR)) = (c', Ok tt) /\
    knn_predict (brute_search (F := R)) c' iris_X = Ok (ds_target (@iris_load R NumR)).
Proof.
  destruct (@iris_shape R NumR) as (W & Nr & Nc & Lt & _). fold iris_X in *.
  destruct (brute_recalls 1 s0 t0 iris_X (ds_target (@iris_load R NumR)) eq_refl W ltac:(now rewrite Nr) ltac:(rewrite Nr; lia)) as (c' & out & T & P & Lo & H).
  exists c'. split; [exact T|]. rewrite P. f_equal. rewrite Nr in *. apply (nth_ext _ _ 0%nat 0%nat); [now rewrite Lo, Lt|]. rewrite Lo. intros i Hi.
  destruct (H i Hi) as (j & Hj & Er & ->). cbn [iris_load ds_target].
  destruct (iris_row i Hi) as (a & b & c & d & E1 & E2), (iris_row j Hj) as (a' & b' & c1 & d' & E3 & E4). rewrite E2, E4 in Er.
  injection Er as Q1 Q2 Q3 Q4. apply tenth_inj in Q1, Q2, Q3, Q4. subst a' b' c1 d'.
  pose proof same_row_same_target as S. rewrite forallb_forall in S. specialize (S i ltac:(apply in_seq; lia)). rewrite forallb_forall in S. specialize (S j ltac:(apply in_seq; lia)).
  rewrite E1, E3, eqb_row_refl in S. cbn [negb orb] in S. symmetry. now apply Nat.eqb_eq.
Qed.

(** ** Setosa against the rest *)
Lemma setosa_margin : forallb (fun i => match nth i iris_table [] with [a; b; c; d] => if (i <? 50)%nat then (c + d + 7 <=? b)%nat else (b + 16 <=? c + d)%nat | _ => false end) (seq 0 150) = true.
Proof. vm_compute. reflexivity. Qed.
Lemma iris_norms : forallb (fun r => (list_sum (map (fun x => x * x) r) <=? 12346)%nat) iris_table = true.
Proof. vm_compute. reflexivity. Qed.
Definition setosa_q : list R := [9 / 20; 0; 1; - 1; - 1].
Lemma species_nth c i : (i < 150)%nat -> nth i (is_species c (ds_target (@iris_load R NumR))) 0 = if (i / 50 =? c)%nat then 1 else 0.
Proof.
  intros Hi. destruct (@iris_shape R NumR) as (_ & _ & _ & Lt & T). unfold is_species. rewrite (nth_map _ _ _ _ 0%nat) by (now rewrite Lt). now rewrite T.
Qed.
Lemma setosa_separates : separates iris_X (is_species 0 (ds_target (@iris_load R NumR))) setosa_q (23 / 20).
Proof.
  destruct (@iris_shape R NumR) as (W & Nr & Nc & Lt & _). fold iris_X in *. split; [now rewrite Nc|]. rewrite Nr. intros i Hi.
  rewrite species_nth by auto. destruct (iris_row i Hi) as (a & b & c & d & E1 & E2). rewrite E2.
  pose proof setosa_margin as S. rewrite forallb_forall in S. specialize (S i ltac:(apply in_seq; lia)). rewrite E1 in S.
  assert (A : affine setosa_q [INR a / 10; INR b / 10; INR c / 10; INR d / 10] = 9 / 20 + (INR b - INR c - INR d) / 10) by (unfold affine, setosa_q; cbn; field).
  rewrite A. destruct (i <? 50)%nat eqn:E.
  - left. apply Nat.ltb_lt in E. rewrite (Nat.div_small i 50) by auto. split; [reflexivity|]. apply Nat.leb_le, le_INR in S. rewrite !plus_INR in S. cbn in S. lra.
  - right. apply Nat.ltb_ge in E. assert (i / 50 <> 0)%nat by (intros Q; apply Nat.div_small_iff in Q; lia). apply Nat.eqb_neq in H. rewrite H. split; [reflexivity|].
    apply Nat.leb_le, le_INR in S. rewrite !plus_INR in S. cbn in S. lra.
Qed.
Lemma iris_bound x : In x (mrows iris_X) -> 1 + sqnorm x <= 12446 / 100.
Proof.
  intros Hx. destruct (In_nth _ _ [] Hx) as (i & Hi & <-). destruct (@iris_shape R NumR) as (_ & Nr & _). fold iris_X in *. unfold nrows in Nr. rewrite Nr in Hi.
  destruct (iris_row i Hi) as (a & b & c & d & E1 & E2). rewrite E2. pose proof iris_norms as S. rewrite forallb_forall in S.
  rewrite <- table_len in Hi. specialize (S _ (nth_In _ [] Hi)). rewrite E1 in S. cbn [map list_sum fold_right] in S. apply Nat.leb_le, le_INR in S.
  rewrite !plus_INR, !mult_INR in S. replace (INR 12346) with 12346 in S by (rewrite INR_IZR_INZ; reflexivity). cbn [INR] in S. unfold sqnorm. cbn [length sumR nth]. lra.
Qed.
Lemma ln600 : ln 600 <= 13 / 2.
Proof.
  rewrite <- (ln_exp (13 / 2)). apply ln_le; [lra|].
  assert (H0 : 65 / 64 <= exp (/ 64)) by (pose proof (exp_ineq1 (/ 64) ltac:(lra)); lra).
  assert (D : forall x u v, 0 <= u -> u <= exp x -> v <= u * u -> v <= exp (2 * x)).
  { intros x u v U1 U2 U3. replace (2 * x) with (x + x) by ring. rewrite exp_plus. nra. }
  assert (H1 : 1.03149 <= exp (/ 32)) by (replace (/ 32) with (2 * / 64) by lra; apply (D _ (65 / 64)); lra).
  assert (H2 : 1.06397 <= exp (/ 16)) by (replace (/ 16) with (2 * / 32) by lra; eapply D; [|exact H1|]; lra).
  assert (H3 : 1.13203 <= exp (/ 8)) by (replace (/ 8) with (2 * / 16) by lra; eapply D; [|exact H2|]; lra).
  assert (H4 : 1.28149 <= exp (/ 4)) by (replace (/ 4) with (2 * / 8) by lra; eapply D; [|exact H3|]; lra).
  assert (H5 : 1.64221 <= exp (/ 2)) by (replace (/ 2) with (2 * / 4) by lra; eapply D; [|exact H4|]; lra).
  assert (H6 : 2.69685 <= exp 1) by (replace 1 with (2 * / 2) by lra; eapply D; [|exact H5|]; lra).
  assert (H7 : 7.27 <= exp 2) by (replace 2 with (2 * 1) by lra; eapply D; [|exact H6|]; lra).
  assert (H8 : 52.8 <= exp 4) by (replace 4 with (2 * 2) by lra; eapply D; [|exact H7|]; lra).
  replace (13 / 2) with (4 + 2 + / 2) by lra. rewrite !exp_plus. pose proof (exp_pos 4). pose proof (exp_pos 2). pose proof (exp_pos (/ 2)).
  assert (383 <= exp 4 * exp 2) by nra. nra.
Qed.
Lemma iris_reach : 0 <= reach iris_X setosa_q (23 / 20) <= 107.
Proof.
  destruct (@iris_shape R NumR) as (_ & Nr & Nc & _). fold iris_X in *. unfold reach. rewrite Nr, Nc. replace (INR 150) with 150 by (rewrite INR_IZR_INZ; reflexivity).
  replace (4 * 150) with 600 by lra. pose proof ln600 as U. assert (V : 0 <= ln 600) by (rewrite <- ln_1; apply ln_le; lra).
  set (s := ln 600 / (23 / 20)). assert (S0 : 0 <= s <= 5.66) by (unfold s, Rdiv; lra). clearbody s. unfold setosa_q. cbn [sumR nth]. split; [|nra].
  pose proof (pow2_ge_0 (1 / 2 - s * (9 / 20))). pose proof (pow2_ge_0 (1 / 2 - s * 0)). pose proof (pow2_ge_0 (1 / 2 - s * 1)). pose proof (pow2_ge_0 (1 / 2 - s * - 1)). lra.
Qed.
Theorem iris_setosa gd (self : LogisticRegressor R) : / 10 ^ 12 <= gd_alpha gd <= 1 / 32 -> 32100 < gd_alpha gd * INR (gd_iters gd) ->
  let y := is_species 0 (ds_target (@iris_load R NumR)) in
  exists self' out, log_train (gd_optimize gd) self iris_X y = (self', Ok tt) /\ log_predict self' iris_X = Ok out /\ all_right y out.
Proof.
  intros A I y. destruct (@iris_shape R NumR) as (W & Nr & Nc & Lt & _). fold iris_X in *. pose proof iris_reach as B.
  assert (P12 : 0 < / 10 ^ 12) by (apply Rinv_0_lt_compat, pow_lt; lra).
  assert (N : INR (nrows iris_X) = 150) by (rewrite Nr, INR_IZR_INZ; reflexivity).
  apply (log_separable gd self iris_X y setosa_q (23 / 20) (12446 / 100)); auto.
  - rewrite Nr. lia.
  - apply iris_bound.
  - lra.
  - lra.
  - lra.
  - apply setosa_separates.
  - rewrite N. cbn; lra.
  - rewrite N. lra.
  - rewrite N. replace (10 ^ 20) with (10 ^ 8 * 10 ^ 12) by (rewrite <- pow_add; reflexivity).
    assert (10 ^ 8 <= 10 ^ 8 * 10 ^ 12 * gd_alpha gd).
    { replace (10 ^ 8) with (10 ^ 8 * (10 ^ 12 * / 10 ^ 12)) at 1 by (rewrite Rinv_r; [ring|apply Rgt_not_eq, pow_lt; lra]).
      rewrite Rmult_assoc. apply Rmult_le_compat_l; [apply pow_le; lra|]. apply Rmult_le_compat_l; [apply pow_le; lra|lra]. }
    assert (E8 : 10 ^ 8 = 100000000) by (cbn; lra). rewrite E8 in *. lra.
Qed.

(** ** Versicolor against Virginica *)
Lemma log_right_side self X y out p i : log_parameters self = Some p -> mwf X -> length p = S (mcols X) -> log_predict self X = Ok out -> all_right y out ->
  (i < length y)%nat -> (i < nrows X)%nat ->
  (nth i y 0 = 1 -> 0 < affine p (nth i (mrows X) [])) /\ (nth i y 0 = 0 -> affine p (nth i (mrows X) []) < 0).
Proof.
  intros E W L P [_ R] Hy Hi. unfold log_predict in P. rewrite E, rmat_vec_eq in P by (cbn; auto). cbn [rbind] in P. rewrite mat_vec_ones in P by auto. apply Ok_inj in P. subst out.
  specialize (R i Hy). rewrite map_map, (nth_map (fun x => sigmoid (affine p x)) _ _ _ []), sigmoid_R in R by exact Hi.
  set (z := affine p (nth i (mrows X) [])) in *. pose proof (exp_pos (- z)). destruct R as [R1 R0]. split; intros Ht.
  - specialize (R1 Ht). destruct (Rlt_dec 0 z) as [|C]; auto. exfalso. assert (1 <= exp (- z)) by (rewrite <- exp_0; apply exp_le; lra).
    assert (/ (1 + exp (- z)) <= / 2) by (apply Rinv_le_contravar; lra). lra.
  - specialize (R0 Ht). destruct (Rlt_dec z 0) as [|C]; auto. exfalso. assert (exp (- z) <= 1) by (rewrite <- exp_0; apply exp_le; lra).
    assert (/ 2 <= / (1 + exp (- z))) by (apply Rinv_le_contravar; lra). lra.
Qed.
Lemma iris12_row i : (i < 100)%nat -> nth i (mrows iris_X12) [] = nth (50 + i) (mrows iris_X) [].
Proof. intros _. unfold iris_X12. cbn [mrows]. generalize (mrows iris_X). intros l. revert i. do 50 (destruct l as [|? l]; [intros [|]; reflexivity|]). intros i. reflexivity. Qed.
Lemma iris12_shape : mwf iris_X12 /\ nrows iris_X12 = 100%nat /\ mcols iris_X12 = 4%nat /\ length iris_y12 = 100%nat.
Proof.
  destruct (@iris_shape R NumR) as (W & Nr & _). fold iris_X in *. split; [|split; [|split]]; [|unfold nrows, iris_X12; cbn [mrows]; rewrite skipn_length; unfold nrows in Nr; lia|reflexivity|reflexivity].
  unfold mwf, iris_X12. cbn [mrows mcols]. unfold mwf in W. rewrite <- (firstn_skipn 50 (mrows iris_X)) in W. apply Forall_app in W. apply W.
Qed.
Theorem iris_not_separable (self : LogisticRegressor R) out : log_predict self iris_X12 = Ok out -> ~ all_right iris_y12 out.
Proof.
  intros P A. destruct iris12_shape as (W & Nr & Nc & Ly). pose proof P as P0. unfold log_predict in P0. destruct (log_parameters self) as [p|] eqn:E; [|discriminate].
  assert (L : length p = 5%nat).
  { unfold rmat_vec, rassert in P0. change (mcols (with_ones iris_X12)) with 5%nat in P0. destruct (5 =? length p)%nat eqn:Q; [|discriminate]. symmetry. now apply Nat.eqb_eq. }
  clear P0. assert (R : forall i, (i < 100)%nat -> (nth i iris_y12 0 = 1 -> 0 < affine p (nth (50 + i) (mrows iris_X) [])) /\ (nth i iris_y12 0 = 0 -> affine p (nth (50 + i) (mrows iris_X) []) < 0)).
  { intros i Hi. rewrite <- iris12_row by auto. apply (log_right_side self iris_X12 iris_y12 out); auto; try lia. }
  assert (V : forall i (a b c d : nat), nth i iris_table [] = [a; b; c; d] -> (i < 150)%nat -> affine p (nth i (mrows iris_X) []) =
     nth 0 p 0 + (nth 1 p 0 * INR a + nth 2 p 0 * INR b + nth 3 p 0 * INR c + nth 4 p 0 * INR d) / 10).
  { intros i a b c d E1 Hi. destruct (iris_row i Hi) as (a' & b' & c' & d' & E2 & E3). rewrite E1 in E2. injection E2 as <- <- <- <-. rewrite E3. unfold affine. cbn. field. }
  assert (R1 := proj2 (R 1%nat ltac:(lia)) ltac:(reflexivity)). assert (R2 := proj2 (R 5%nat ltac:(lia)) ltac:(reflexivity)). assert (R3 := proj2 (R 33%nat ltac:(lia)) ltac:(reflexivity)).
  assert (R4 := proj1 (R 56%nat ltac:(lia)) ltac:(reflexivity)). assert (R5 := proj1 (R 79%nat ltac:(lia)) ltac:(reflexivity)). assert (R6 := proj1 (R 83%nat ltac:(lia)) ltac:(reflexivity)).
  cbn [Nat.add] in *.
  rewrite (V 51%nat 64%nat 32%nat 45%nat 15%nat) in R1 by (lia || (vm_compute; reflexivity)). rewrite (V 55%nat 57%nat 28%nat 45%nat 13%nat) in R2 by (lia || (vm_compute; reflexivity)).
  rewrite (V 83%nat 60%nat 27%nat 51%nat 16%nat) in R3 by (lia || (vm_compute; reflexivity)). rewrite (V 106%nat 49%nat 25%nat 45%nat 17%nat) in R4 by (lia || (vm_compute; reflexivity)).
  rewrite (V 129%nat 72%nat 30%nat 58%nat 16%nat) in R5 by (lia || (vm_compute; reflexivity)). rewrite (V 133%nat 63%nat 28%nat 51%nat 15%nat) in R6 by (lia || (vm_compute; reflexivity)).
  rewrite !INR_IZR_INZ in *. cbn [Z.of_nat Pos.of_succ_nat Pos.succ] in *. lra.
Qed.

(** ** Enough variation for least squares *)
Lemma iris_spans : spans iris_X.
Proof.
  intros q Lq Z. change (mcols iris_X) with 4%nat in *. destruct q as [|q0 [|q1 [|q2 [|q3 [|q4 [|]]]]]]; try discriminate.
  assert (V : forall i (a b c d : nat), nth i iris_table [] = [a; b; c; d] -> (i < 150)%nat -> q0 + (q1 * INR a + q2 * INR b + q3 * INR c + q4 * INR d) / 10 = 0).
  { intros i a b c d E1 Hi. destruct (iris_row i Hi) as (a' & b' & c' & d' & E2 & E3). rewrite E1 in E2. injection E2 as <- <- <- <-.
    assert (In (nth i (mrows iris_X) []) (mrows iris_X)). { apply nth_In. destruct (@iris_shape R NumR) as (_ & Nr & _). fold iris_X in Nr. unfold nrows in Nr. rewrite Nr. exact Hi. }
    specialize (Z _ H). rewrite E3 in Z. unfold affine in Z. cbn in Z. lra. }
  assert (V0 := V 0%nat _ _ _ _ ltac:(vm_compute; reflexivity) ltac:(lia)). assert (V1 := V 1%nat _ _ _ _ ltac:(vm_compute; reflexivity) ltac:(lia)).
  assert (V2 := V 50%nat _ _ _ _ ltac:(vm_compute; reflexivity) ltac:(lia)). assert (V3 := V 100%nat _ _ _ _ ltac:(vm_compute; reflexivity) ltac:(lia)).
  assert (V4 := V 149%nat _ _ _ _ ltac:(vm_compute; reflexivity) ltac:(lia)).
  rewrite !INR_IZR_INZ in *. cbn [Z.of_nat Pos.of_succ_nat Pos.succ] in *. cbn [repeat]. assert (q0 = 0) by lra. assert (q1 = 0) by lra. assert (q2 = 0) by lra. assert (q3 = 0) by lra. assert (q4 = 0) by lra. now subst.
Qed.
Lemma trees_spans : spans trees_X.
Proof.
  intros q Lq Z. change (mcols trees_X) with 2%nat in *. destruct q as [|q0 [|q1 [|q2 [|]]]]; try discriminate.
  assert (V : forall a b, In (a, b) trees_table -> q0 + q1 * (INR a / 10) + q2 * INR b = 0).
  { intros a b H. specialize (Z [tenths a; nofnat b]). rewrite tenths_R in Z. cbn [nofnat NumR] in Z. unfold affine in Z. cbn [length sumR nth] in Z.
    assert (I : In [INR a / 10; INR b] (mrows trees_X)). { unfold trees_X, trees_load. cbn [ds_data mrows]. apply in_map_iff. exists (a, b). split; auto. cbn [fst snd]. now rewrite tenths_R. }
    specialize (Z I). lra. }
  assert (V0 := V 83%nat 70%nat ltac:(cbn; tauto)). assert (V1 := V 86%nat 65%nat ltac:(cbn; tauto)). assert (V2 := V 88%nat 63%nat ltac:(cbn; tauto)).
  rewrite !INR_IZR_INZ in *. cbn [Z.of_nat Pos.of_succ_nat Pos.succ] in *. cbn [repeat]. assert (q0 = 0) by lra. assert (q1 = 0) by lra. assert (q2 = 0) by lra. now subst.
Qed.
