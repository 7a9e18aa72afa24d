(** * C03-C05: k-fold cross validation ([src/analysis/cross_validation.rs]) *)
From Coq Require Import List Arith Bool Permutation Lia.
From Verif Require Import Base BaseLemmas Model_Rand Model_CrossVal Spec_CrossVal Proof_CrossVal.
Import ListNotations.

(** C03: for every shuffle of the indices, the folds form a k-fold partition, or the call panics. *)
Theorem C03_folds_partition : forall (idx : list nat) (k n : nat), Permutation idx (seq 0 n) ->
  (1 < k <= n -> exists ps, folds idx k = Ok ps /\ kfold_partition n k ps) /\
  (~ (1 < k <= n) -> folds idx k = Panic).
Proof. exact folds_spec. Qed.
Print Assumptions C03_folds_partition.

(** Unit tests of the repository (lines 205-276). *)
Example C03_ex_n6_k4 : folds [0;1;2;3;4;5] 4 =
  Ok [([2;3;4;5],[0;1]); ([0;1;4;5],[2;3]); ([0;1;2;3;5],[4]); ([0;1;2;3;4],[5])].
Proof. reflexivity. Qed.
Example C03_ex_unordered : folds [5;4;3;2;1;0] 3 =
  Ok [([3;2;1;0],[5;4]); ([5;4;1;0],[3;2]); ([5;4;3;2],[1;0])] /\ Permutation [5;4;3;2;1;0] (seq 0 6).
Proof. split; [reflexivity|]. symmetry. apply (Permutation_rev (seq 0 6)). Qed.
Example C03_ex_reject : folds [0;1;2] 4 = Panic.
Proof. reflexivity. Qed.

(** C04: whatever the model, the scoring function and the draws, [k_fold_validate] panics iff the
    arguments are unusable, and otherwise carries out exactly the train / predict / score steps of
    a k-fold partition, each on the rows (and the targets of those rows) of the split, stopping at
    the first error. *)
Theorem C04_k_fold_validate : forall (M X Y F : Type)
  (train : M -> list X -> list Y -> res unit * M) (predict : M -> list X -> res (list Y))
  (score : list Y -> list Y -> res F) (inputs : list X) (targets : list Y) (k : nat) (m : M) o,
  outcome (k_fold_validate train predict score m inputs targets k) o ->
  (~ (length inputs = length targets /\ 1 < k <= length inputs) /\ o = None) \/
  (length inputs = length targets /\ 1 < k <= length inputs /\
   exists ps r m', o = Some (r, m') /\ kfold_partition (length inputs) k ps /\
     validated train predict score inputs targets ps m r m').
Proof. exact @k_fold_validate_spec. Qed.
Print Assumptions C04_k_fold_validate.

(** A model that remembers its training targets and predicts their sum. *)
Definition ex_train (m : nat) (xs ys : list nat) : res unit * nat := (Ok tt, list_sum ys).
Definition ex_predict (m : nat) (xs : list nat) : res (list nat) := Ok (map (fun x => m + x) xs).
Definition ex_score (o t : list nat) : res nat := Ok (list_sum o).
Example C04_ex : outcome (k_fold_validate ex_train ex_predict ex_score 0 [10;20;30] [1;2;4] 3)
  (Some (Ok [16;25;33], 3)).
Proof.
  unfold k_fold_validate. simpl.
  apply out_gen with 0; [lia|]. simpl. apply out_gen with 0; [lia|]. simpl.
  apply out_gen with 0; [lia|]. simpl. constructor.
Qed.

(** C05, part: if training overwrites everything it depends on, every score is the score of a model
    in any chosen initial state trained on that split alone.  Missing from the full statement:
    models that keep state across [train] calls; for those it is false (see [C05_refuted_nnet] in
    [Props_History.v]). *)
Theorem C05_memoryless_models_partial : forall (M X Y F : Type)
  (train : M -> list X -> list Y -> res unit * M) (predict : M -> list X -> res (list Y))
  (score : list Y -> list Y -> res F) (inputs : list X) (targets : list Y) ps (m0 m : M) cs m',
  memoryless train -> validated train predict score inputs targets ps m (Ok cs) m' ->
  Forall2 (split_score train predict score inputs targets m0) ps cs.
Proof. exact @validated_memoryless. Qed.
Print Assumptions C05_memoryless_models_partial.

Example C05_memoryless_ex : memoryless ex_train /\
  validated ex_train ex_predict ex_score [10;20] [1;2] [([1],[0])] 0 (Ok [12]) 2.
Proof.
  split; [intros m m' xs ys; reflexivity|].
  eapply v_cons with (xtr := [20]) (ytr := [2]) (xte := [10]) (yte := [1]) (m1 := 2);
    try (repeat constructor; reflexivity); reflexivity.
Qed.
