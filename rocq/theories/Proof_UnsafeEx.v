(** * Calls of safe functions with undefined behaviour, and harmless ones *)
From Coq Require Import List Arith Lia Bool Reals ZArith Lra.
From Verif Require Import Base BaseLemmas Num NumFn NumOrd NumF Linalg LinalgR Spec_Calc CalcR Model_Toolkit Model_Optim Model_Cost Model_Regression Model_KNN Spec_KNN Proof_KNNEx.
From Verif Require Import Model_KMeans Model_PCA Spec_PCA Model_NNet Spec_NNet Proof_NNet Model_Unsafe Spec_Unsafe Proof_Unsafe Proof_Unsafe2.
Import ListNotations.
Local Open Scope nat_scope.

(** Training data with two columns, of which the second is split. *)
Definition plane : matrix B64 := Mat [[b64_of_Z 0; b64_of_Z 0]; [b64_of_Z 1; b64_of_Z 5]; [b64_of_Z 0; b64_of_Z 9]] 2.
Definition line : matrix B64 := Mat [[b64_of_Z 0]] 1.
Definition on_second {G} (t : node (F := B64) G) : bool := match t with Branch d _ _ _ _ => d =? 1 | Leaf _ => false end.
Lemma plane_tree {G} (B : BinarySplit (F := B64) G) :
  match tree_build B 20 2 plane with Some (Ok t) => on_second t | _ => false end = true ->
  exists t, tree_build B 20 2 plane = Some (Ok t) /\ splits_on t 1.
Proof.
  destruct (tree_build B 20 2 plane) as [[t| |]|]; try discriminate. intros H. exists t. split; auto.
  destruct t as [|d sp g l r]; [discriminate|]. apply Nat.eqb_eq in H. subst d. exists sp, g, l, r. reflexivity.
Qed.
Lemma kd_plane : exists t, tree_build kd_split 20 2 plane = Some (Ok t) /\ splits_on t 1.
Proof. apply plane_tree. vm_compute. reflexivity. Qed.
Lemma ball_plane : exists t, tree_build ball_split 20 2 plane = Some (Ok t) /\ splits_on t 1.
Proof. apply plane_tree. vm_compute. reflexivity. Qed.
Lemma plane_wf : mwf plane /\ mwf line /\ mcols line < mcols plane /\ nrows plane = 3.
Proof. repeat split; try (repeat constructor). Qed.

Definition fresh {S} (k : nat) (s : S) : KNNClassifier S := {| knn_k := k; knn_searcher := s; knn_target := None |}.
Lemma narrow_gen {G} (B : BinarySplit (F := B64) G) checked : (exists t, tree_build B 20 2 plane = Some (Ok t) /\ splits_on t 1) ->
  exists fuel leafsize c, knn_train (tree_searcher B fuel leafsize) (fresh 1 None) plane [0; 1; 2] = (c, Ok tt) /\
    m_knn_predict (m_tree_search checked B) c line = MUB.
Proof.
  intros (t & E & Sp). exists 20, 2. eexists. split.
  - unfold knn_train, tree_searcher. rewrite E. reflexivity.
  - unfold m_knn_predict. cbn [knn_target line mrows mmap knn_searcher knn_k]. rewrite (tree_narrow checked B t 1) by (auto; cbn; lia). reflexivity.
Qed.
Theorem narrow_kd checked : exists fuel leafsize c, knn_train (tree_searcher kd_split fuel leafsize) (fresh 1 None) plane [0; 1; 2] = (c, Ok tt) /\
  m_knn_predict (m_tree_search checked kd_split) c line = MUB.
Proof. apply narrow_gen, kd_plane. Qed.
Theorem narrow_ball checked : exists fuel leafsize c, knn_train (tree_searcher ball_split fuel leafsize) (fresh 1 None) plane [0; 1; 2] = (c, Ok tt) /\
  m_knn_predict (m_tree_search checked ball_split) c line = MUB.
Proof. apply narrow_gen, ball_plane. Qed.

(** No neighbours. *)
Lemma zero_gen {G} (B : BinarySplit (F := R) G) checked : (exists fuel t, tree_build B fuel 2 real_points = Some (Ok t) /\ ~ (exists c, t = Leaf c)) ->
  exists fuel c, knn_train (tree_searcher B fuel 2) (fresh 0 None) real_points [0; 1; 2] = (c, Ok tt) /\
    m_knn_predict (m_tree_search checked B) c real_points = if checked then MPanic else MUB.
Proof.
  intros (fuel & t & E & NL). exists fuel. eexists. split.
  - unfold knn_train, tree_searcher. rewrite E. reflexivity.
  - destruct t as [c|d sp g l r]; [exfalso; eauto|]. destruct real_ex as (_ & W & NE & _).
    unfold m_knn_predict. cbn [knn_target mmap knn_searcher knn_k].
    change (mrows real_points) with [[0%R]; [1%R]; [3%R]]. cbn [mmap].
    rewrite (tree_zero B fuel 2 _ d real_points [0%R] checked W NE); [now destruct checked|cbn; lia|exact E|].
    exists sp, g, l, r. reflexivity.
Qed.
Theorem zero_kd checked : exists fuel c, knn_train (tree_searcher kd_split fuel 2) (fresh 0 None) real_points [0; 1; 2] = (c, Ok tt) /\
  m_knn_predict (m_tree_search checked kd_split) c real_points = if checked then MPanic else MUB.
Proof. apply zero_gen, real_ex_kd. Qed.
Theorem zero_ball checked : exists fuel c, knn_train (tree_searcher ball_split fuel 2) (fresh 0 None) real_points [0; 1; 2] = (c, Ok tt) /\
  m_knn_predict (m_tree_search checked ball_split) c real_points = if checked then MPanic else MUB.
Proof. apply zero_gen, real_ex_ball. Qed.

(** A layer written by a user that advertises a parameter and supplies none. *)
Definition liar : NetLayer R :=
  {| nl_forward := fun X _ => Ok X; nl_back_input := fun g _ _ _ => Ok g; nl_back_params := fun _ _ _ _ => Ok (Mat [[0%R]] 1);
     nl_default_params := fun _ => []; nl_param_shape := (1, 1) |}.
Theorem liar_undefined rng (X : matrix R) (c : Criterion R) :
  m_net_predict (net_add rng (net_new c) liar) X = MUB /\ m_get_net_weights (net_add rng (net_new c) liar) 0 = MUB.
Proof. split; reflexivity. Qed.

(** [compute_grad] with too few or too many parameters. *)
Definition unit_net : BaseNeuralNet R := {| nn_layers := [linear_layer (linear_without_bias 1 1)]; nn_weights := [0%R]; nn_criterion := MSECriterion RegNone |}.
Definition one_point : matrix R := Mat [[0%R]] 1.
Theorem grad_wrong_length : m_net_compute_grad unit_net [] one_point one_point = MUB /\ m_net_compute_grad unit_net [0%R; 0%R] one_point one_point = MUB.
Proof. split; reflexivity. Qed.
Lemma unit_net_reachable : reachable unit_net.
Proof.
  assert (H : unit_net = net_add (fun _ _ => 0%R) (net_new (MSECriterion RegNone)) (linear_layer (linear_without_bias 1 1))).
  { unfold unit_net, net_add. cbn. repeat f_equal. ring. }
  rewrite H. apply reach_add; [constructor|apply linear_honest].
Qed.
Lemma unit_net_returns : exists r, m_net_compute_grad unit_net [0%R] one_point one_point = MOk r.
Proof. eexists. reflexivity. Qed.

(** PCA after a training that panicked. *)
Definition svd_flaky (m : matrix R) : option (matrix R) := if mcols m =? 2 then Some (Mat [[1%R; 0%R]; [0%R; 1%R]] 2) else None.
Definition square2 : matrix R := Mat [[0%R; 0%R]; [1%R; 2%R]] 2.
Theorem pca_after_panic : exists self1 self2, pca_train svd_flaky pca_default square2 = (self1, Ok tt) /\
  pca_train svd_flaky self1 one_point = (self2, Panic) /\ m_pca_predict self2 square2 = MUB.
Proof. eexists. eexists. split; [reflexivity|]. split; reflexivity. Qed.
Lemma pca_trained_ex : exists self, trained_on svd_flaky pca_default [square2] self /\ mwf square2 /\ exists Y, m_pca_predict self square2 = MOk Y.
Proof.
  eexists. split; [|split; [repeat constructor|]].
  - change [square2] with ([] ++ [square2]). eapply TO_ok; [constructor|repeat constructor|reflexivity].
  - eexists. reflexivity.
Qed.

(** k-means initialisers. *)
Definition three_rows : matrix R := Mat [[0%R]; [1%R]; [4%R]] 1.
Lemma three_ok : mwf three_rows /\ 0 < nrows three_rows /\ length [(1 / 2)%R] = 2 - 1 /\ exists c, m_kpp three_rows 2 0 [(1 / 2)%R] = MOk c.
Proof.
  split; [repeat constructor|]. split; [cbn; lia|]. split; [reflexivity|].
  destruct (kpp_sound three_rows 2 0 [(1 / 2)%R]) as (_ & E); [repeat constructor|cbn; lia|lia|reflexivity|]. rewrite E. clear E.
  unfold kpp, three_rows. cbn [mrows mcols ridx nth_error rbind kpp_loop].
  unfold find_closest_centroids. cbn [mrows mcols rmap]. unfold closest. cbn [mcols Nat.eqb rassert mrows map argmin argbest rbind fst snd].
  cbn [forallb nfinite NumR andb negb]. unfold sample_discretely. cbn [length Nat.ltb Nat.leb rassert].
  unfold sqdist.
  match goal with |- context [nltb nzero ?s] => assert (Hs : s = 17%R) end.
  { cbn. lra. }
  rewrite Hs. cbn [nltb NumR nzero]. destruct (Rlt_dec 0 17) as [H0|]; [|lra]. cbn [rassert].
  cbn [sample_loop]. cbn.
  repeat match goal with |- context [Rlt_dec ?a ?b] => destruct (Rlt_dec a b); try (exfalso; lra) end; cbn; eauto.
Qed.
Lemma partition_ex : exists a, outcome (m_partition_loop 2 3) (Some (MOk a)).
Proof. eexists. unfold m_partition_loop. cbn. apply out_gen with (i := 1); [lia|]. cbn. constructor. Qed.
