(** * What cross validation says about single samples *)
From Coq Require Import List Arith Reals Bool.
From Verif Require Import Base Spec_CrossVal.
Import ListNotations.

(** Number of test samples of split [i]. *)
Definition fold_size (n k i : nat) : nat := n / k + (if i <? n mod k then 1 else 0).

(** The [i]-th split trains on [tr] and tests on [te], in these orders. *)
Definition split_is (i : nat) (tr te : list nat) (ps : list (list nat * list nat)) : bool :=
  match nth_error ps i with
  | Some (a, b) =>
      if list_eq_dec Nat.eq_dec a tr then if list_eq_dec Nat.eq_dec b te then true else false else false
  | None => false
  end.

(** The [i]-th split tests sample [j]. *)
Definition tests_sample (i j : nat) (ps : list (list nat * list nat)) : bool :=
  match nth_error ps i with
  | Some (_, te) => existsb (Nat.eqb j) te
  | None => false
  end.

(** Sum of the values of [v] on paired elements. *)
Definition paired_sum {Y} (v : Y -> Y -> R) (out ts : list Y) : R :=
  fold_right Rplus 0%R (map (fun p => v (fst p) (snd p)) (combine out ts)).

(** A score that is the mean of a value [v] per pair of output and target. *)
Definition mean_score {Y} (v : Y -> Y -> R) (score : list Y -> list Y -> res R) : Prop :=
  forall out ts c, score out ts = Ok c -> length out = length ts /\ (c * INR (length ts) = paired_sum v out ts)%R.

(** [answers] holds, for every sample, what a model trained on the training rows of the split that tests the sample
    predicted for it. *)
Definition held_out {M X Y} (train : M -> list X -> list Y -> res unit * M) (predict : M -> list X -> res (list Y))
  (inputs : list X) (targets : list Y) (ps : list (list nat * list nat)) (answers : list Y) : Prop :=
  length answers = length targets /\
  forall tr te, In (tr, te) ps -> exists m0 m1 xtr ytr xte out,
    rows_at inputs tr xtr /\ rows_at targets tr ytr /\ rows_at inputs te xte /\
    train m0 xtr ytr = (Ok tt, m1) /\ predict m1 xte = Ok out /\ rows_at answers te out.

(** The scores of the splits, each weighted by the number of samples tested. *)
Definition weighted_sum (ps : list (list nat * list nat)) (cs : list R) : R :=
  fold_right Rplus 0%R (map (fun p => (snd p * INR (length (snd (fst p))))%R) (combine ps cs)).

(** Minus the squared distance of two rows. *)
Definition neg_sq_dist (o t : list R) : R :=
  (- fold_right Rplus 0 (map (fun p => (fst p - snd p) * (fst p - snd p)) (combine o t)))%R.
