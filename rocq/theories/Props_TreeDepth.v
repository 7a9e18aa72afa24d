(** * C161: how deep and how large search trees get *)
From Coq Require Import List Arith Reals.
From Verif Require Import Base Num NumOrd NumF Linalg Model_KNN Spec_KNN Spec_TreeDepth Proof_KNNEx Proof_TreeDepth.
Import ListNotations.

(** For any arithmetic, any data (NaN included) and either kind of tree: the recursion is at most as deep as the number
    of rows less the leaf size (plus 2), at least logarithmic, and there are fewer than twice as many nodes as rows. *)
Theorem C161_tree_sizes : forall (F : Type) (N : Num F) (G : Type) (B : BinarySplit (F := F) G) (data : matrix F)
  fuel leafsize t,
  0 < nrows data -> tree_build B fuel leafsize data = Some (Ok t) ->
  depth t <= 1 + (nrows data + 1 - leafsize) /\ length (nodes t) < 2 * nrows data /\
  nrows data <= 2 ^ (depth t - 1) * (leafsize - 1).
Proof. exact @tree_sizes. Qed.
Print Assumptions C161_tree_sizes.

Example C161_ex_tree_sizes : 0 < nrows ex_points /\ exists fuel t, tree_build kd_split fuel 3 ex_points = Some (Ok t).
Proof. exact ex_tree_sizes. Qed.

(** The bound on the depth is reached, for every number of rows: on the points 1, 2, 4, ... every split takes off
    a single row. *)
Theorem C161_depth_is_reached : forall n leafsize, 2 <= leafsize -> 0 < n ->
  (mwf (doubling n) /\ nrows (doubling n) = n) /\
  (exists fuel t, tree_build kd_split fuel leafsize (doubling n) = Some (Ok t) /\ depth t = 1 + (n + 1 - leafsize)) /\
  (exists fuel t, tree_build ball_split fuel leafsize (doubling n) = Some (Ok t) /\ depth t = 1 + (n + 1 - leafsize)).
Proof. exact chain_reached. Qed.
Print Assumptions C161_depth_is_reached.

Example C161_ex_depth_is_reached : 2 <= 30 /\ 0 < 1000 /\ 1 + (1000 + 1 - 30) = 972.
Proof. now repeat split; apply Nat.leb_le. Qed.
