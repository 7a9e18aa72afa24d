(** Scores of the library that are means over samples, and concrete cases. *)
From Coq Require Import List Arith Lia Bool Permutation Reals Lra.
From Verif Require Import Base BaseLemmas Num NumFn Linalg LinalgR CalcR Model_Rand Model_CrossVal Spec_CrossVal Model_Score Model_Cost Proof_Cost Spec_FoldLaw Proof_FoldLaw.
Import ListNotations.
Local Open Scope R_scope.

Lemma accuracy_mean {T} (eqb : T -> T -> bool) : mean_score (fun o t => if eqb o t then 1 else 0) (accuracy (F := R) eqb).
Proof.
  intros out ts c H. unfold accuracy in H. destruct (Nat.eqb_spec (length out) (length ts)) as [E|E]; [|discriminate]. split; auto.
  cbn [rassert] in H. injection H as <-. rewrite <- E. unfold paired_sum.
  transitivity (INR (length (filter (fun xy => eqb (fst xy) (snd xy)) (combine out ts)))).
  - destruct (Nat.eq_dec (length out) 0) as [Z|Z].
    + apply length_zero_iff_nil in Z. subst out. cbn. lra.
    + cbn [ndiv nofnat NumR]. field. now apply not_0_INR.
  - generalize (combine out ts) as l. induction l as [|[o t] l IH]; [reflexivity|]. cbn [filter fst snd map fold_right].
    destruct (eqb o t); [|rewrite IH; lra]. change (length ((o, t) :: ?x)) with (S (length x)). rewrite <- IH. cbn [length]. rewrite S_INR. lra.
Qed.

Lemma row_accuracy_mean : mean_score (fun o t => if slice_eqb o t then 1 else 0) (row_accuracy (F := R)).
Proof. exact (accuracy_mean slice_eqb). Qed.

Lemma nmse_mean w : mean_score neg_sq_dist (fun o t => neg_mean_squared_error (Mat o w) (Mat t w)).
Proof.
  intros out ts c H. unfold neg_mean_squared_error in H. destruct (same_shape (Mat out w) (Mat ts w)) eqn:S.
  2:{ unfold mse_cost in H. rewrite S in H. discriminate. }
  rewrite (mse_cost_R _ _ S) in H. cbn [rbind] in H. injection H as <-.
  apply same_shape_true in S. destruct S as [L _]. unfold nrows in *. cbn [mrows] in *. split; auto.
  cbn [nopp nadd nmul nonev NumR]. rewrite <- L.
  transitivity (- msumf (mzip (fun x y => (x - y) * (x - y)) (Mat out w) (Mat ts w))).
  - destruct (Nat.eq_dec (length out) 0) as [Z|Z].
    + apply length_zero_iff_nil in Z. subst out. cbn. lra.
    + field. now apply not_0_INR.
  - unfold msumf, mzip, paired_sum. cbn [mrows]. revert ts L. induction out as [|o out IH]; intros [|t ts] L; cbn in L; try discriminate; cbn; [lra|].
    rewrite <- (IH ts) by lia. unfold neg_sq_dist.
    enough (E : forall a b, rsum (map2 (fun x y => (x - y) * (x - y)) a b) = fold_right Rplus 0 (map (fun p => (fst p - snd p) * (fst p - snd p)) (combine a b))) by (cbn in *; rewrite E; lra).
    induction a as [|x a IHa]; intros [|y b]; cbn; auto. now rewrite <- IHa.
Qed.

Lemma split_law_ex : prob (random_folds 4 2) (split_is 1 [0; 2]%nat [3; 1]%nat) = / 24 /\ prob (random_folds 4 2) (split_is 1 [2; 0]%nat [1; 3]%nat) = / 24.
Proof.
  split.
  - rewrite (split_law 4 2 ltac:(lia) 1 [0; 2]%nat [3; 1]%nat); [cbn; f_equal; lra|lia| |reflexivity].
    cbn. apply NoDup_Permutation; [repeat constructor; cbn; lia..|]. intros x. cbn. lia.
  - rewrite (split_law 4 2 ltac:(lia) 1 [2; 0]%nat [1; 3]%nat); [cbn; f_equal; lra|lia| |reflexivity].
    cbn. apply NoDup_Permutation; [repeat constructor; cbn; lia..|]. intros x. cbn. lia.
Qed.
Lemma tested_ex : prob (random_folds 5 2) (tests_sample 0 3) = 3 / 5 /\ prob (random_folds 5 2) (tests_sample 1 3) = 2 / 5.
Proof.
  split; (rewrite tested_prob by lia; cbn; lra).
Qed.

(** A model that remembers its smallest training target and predicts it for every row. *)
Definition min_train (m : nat) (xs ys : list nat) : res unit * nat := (Ok tt, fold_right Nat.min 9%nat ys).
Definition min_predict (m : nat) (xs : list nat) : res (list nat) := Ok (map (fun _ => m) xs).
Lemma pooled_ex : outcome (k_fold_validate min_train min_predict (accuracy (F := R) Nat.eqb) 0%nat [10; 20; 30]%nat [1; 2; 1]%nat 2)
    (Some (Ok [INR 1 / INR 2; INR 1 / INR 1], 1%nat)) /\
  weighted_sum [([2], [0; 1]); ([0; 1], [2])]%nat [INR 1 / INR 2; INR 1 / INR 1] = 2 /\
  paired_sum (fun o t => if (o =? t)%nat then 1 else 0) [1; 1; 1]%nat [1; 2; 1]%nat = 2.
Proof.
  split; [|split].
  - unfold k_fold_validate. cbn -[INR]. apply out_gen with 0%nat; [lia|]. cbn -[INR]. apply out_gen with 0%nat; [lia|]. cbn -[INR].
    apply out_gen with 0%nat; [lia|]. cbn -[INR]. constructor.
  - unfold weighted_sum. cbn. lra.
  - unfold paired_sum. cbn. lra.
Qed.
Lemma pooled_mean_ex : (length [1; 2; 1; 1]%nat mod 2 = 0)%nat /\
  outcome (k_fold_validate min_train min_predict (accuracy (F := R) Nat.eqb) 0%nat [10; 20; 30; 40]%nat [1; 2; 1; 1]%nat 2)
    (Some (Ok [INR 1 / INR 2; INR 2 / INR 2], 1%nat)).
Proof.
  split; [reflexivity|]. unfold k_fold_validate. cbn -[INR]. apply out_gen with 0%nat; [lia|]. cbn -[INR]. apply out_gen with 0%nat; [lia|]. cbn -[INR].
  apply out_gen with 0%nat; [lia|]. cbn -[INR]. apply out_gen with 0%nat; [lia|]. cbn -[INR]. constructor.
Qed.
