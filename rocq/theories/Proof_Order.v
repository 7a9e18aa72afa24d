(** * Training does not depend on the order of the rows *)
From Coq Require Import List Arith Lia Bool Permutation Reals Lra FunctionalExtensionality.
From Verif Require Import Base BaseLemmas Num NumX NumFn Linalg Model_Cost Model_Toolkit Model_Optim Model_Regression Model_KMeans Model_NaiveBayes
  Model_Transforms Model_Score Spec_Order Proof_KMeans.
Import ListNotations.

(** ** Sums in any order *)
Class NumAC (F : Type) {N : Num F} : Prop := {
  ac_comm : forall a b : F, nadd a b = nadd b a;
  ac_assoc : forall a b c : F, nadd a (nadd b c) = nadd (nadd a b) c
}.
Global Instance NumAC_R : NumAC R.
Proof. split; intros; cbn; ring. Qed.
Global Instance NumAC_X : NumAC X.
Proof.
  split.
  - intros [a| | |] [b| | |]; cbn; auto. f_equal. ring.
  - intros [a| | |] [b| | |] [c| | |]; cbn; auto. f_equal. ring.
Qed.

Section AC.
  Context {F : Type} {N : Num F} {A : NumAC F}.
  Lemma fold_perm (l l' : list F) : Permutation l l' -> forall s, fold_left nadd l s = fold_left nadd l' s.
  Proof.
    induction 1 as [|x l l' H IH|x y l|l l' l'' H1 IH1 H2 IH2]; intros s; cbn; auto.
    - rewrite <- !ac_assoc. now rewrite (ac_comm y x).
    - now rewrite IH1.
  Qed.
  Lemma vsum_perm (l l' : list F) : Permutation l l' -> vsum l = vsum l'.
  Proof. intros H. apply fold_perm, H. Qed.

  Lemma map2_maps {B C D E} (f : C -> D -> E) (g : B -> C) (h : B -> D) l : map2 f (map g l) (map h l) = map (fun p => f (g p) (h p)) l.
  Proof. induction l; cbn; congruence. Qed.
  Lemma dot_maps {B} (g h : B -> F) l : dot (map g l) (map h l) = vsum (map (fun p => nmul (g p) (h p)) l).
  Proof. unfold dot. now rewrite map2_maps. Qed.
  Lemma dot_perm {B} (g h : B -> F) l l' : Permutation l l' -> dot (map g l) (map h l) = dot (map g l') (map h l').
  Proof. intros P. rewrite !dot_maps. apply vsum_perm, Permutation_map, P. Qed.
  Lemma col_map {B} (f : B -> list F) l w j : col (Mat (map f l) w) j = map (fun p => nth j (f p) nzero) l.
  Proof. unfold col. cbn [mrows]. apply map_map. Qed.
  Lemma nrows_map {B} (f : B -> list F) l w : nrows (Mat (map f l) w) = length l.
  Proof. unfold nrows. cbn. apply map_length. Qed.

  Lemma with_ones_map {B} (f : B -> list F) l w : with_ones (Mat (map f l) w) = Mat (map (fun p => nonev :: f p) l) (S w).
  Proof. unfold with_ones. cbn [mrows mcols]. now rewrite map_map. Qed.
  Lemma gram_perm {B} (f : B -> list F) l l' w : Permutation l l' ->
    mat_mul (transpose (Mat (map f l) w)) (Mat (map f l) w) = mat_mul (transpose (Mat (map f l') w)) (Mat (map f l') w).
  Proof.
    intros P. unfold mat_mul, transpose. cbn [mrows mcols]. f_equal. rewrite !map_map. apply map_ext. intros i. apply map_ext. intros j.
    rewrite !col_map. now apply dot_perm.
  Qed.
  Lemma tmv_perm {B} (f : B -> list F) (g : B -> F) l l' w : Permutation l l' ->
    rmat_vec (transpose (Mat (map f l) w)) (map g l) = rmat_vec (transpose (Mat (map f l') w)) (map g l').
  Proof.
    intros P. unfold rmat_vec, transpose, mat_vec. cbn [mrows mcols]. rewrite !nrows_map, !map_length, !Nat.eqb_refl. cbn [rassert]. f_equal.
    rewrite !map_map. apply map_ext. intros i. rewrite !col_map. now apply dot_perm.
  Qed.

  (** Linear regression. *)
  Theorem lr_train_order solve self w (l l' : list (list F * F)) : Permutation l l' ->
    lr_train solve self (rows_of w l) (targets_of l) = lr_train solve self (rows_of w l') (targets_of l').
  Proof.
    intros P. unfold lr_train, rows_of, targets_of. rewrite !with_ones_map.
    rewrite (tmv_perm (fun p => nonev :: fst p) snd l l' (S w) P). now rewrite (gram_perm (fun p => nonev :: fst p) l l' (S w) P).
  Qed.

  Lemma rmat_vec_map {B} (f : B -> list F) l w v : rmat_vec (Mat (map f l) w) v = rassert (w =? length v) (Ok (map (fun p => dot (f p) v) l)).
  Proof. unfold rmat_vec, mat_vec. cbn [mcols mrows]. now rewrite map_map. Qed.
  Lemma mse_vec_maps {B} (g h : B -> F) l : mse_cost_vec (map g l) (map h l) =
    Ok (ndiv (vsum (map (fun p => nmul (nsub (g p) (h p)) (nsub (g p) (h p))) l)) (nmul (nadd nonev nonev) (nofnat (length l)))).
  Proof. unfold mse_cost_vec, vsub, velemul. now rewrite !map_length, Nat.eqb_refl, !map2_maps, map_length. Qed.
  Lemma rvsub_maps {B} (g h : B -> F) l : rvsub (map g l) (map h l) = Ok (map (fun p => nsub (g p) (h p)) l).
  Proof. unfold rvsub, vsub. now rewrite !map_length, Nat.eqb_refl, map2_maps. Qed.

  Lemma lr_grad_order w (l l' : list (list F * F)) params : Permutation l l' ->
    lr_compute_grad (with_ones (rows_of w l)) (targets_of l) params = lr_compute_grad (with_ones (rows_of w l')) (targets_of l') params.
  Proof.
    intros P. pose proof (Permutation_length P) as LP. unfold lr_compute_grad, rows_of, targets_of. rewrite !with_ones_map, !rmat_vec_map, !nrows_map.
    destruct (S w =? length params); cbn [rassert rbind]; auto. rewrite !mse_vec_maps. cbn [rbind]. rewrite !rvsub_maps. cbn [rbind].
    rewrite (tmv_perm (fun p => nonev :: fst p) (fun p => nsub (dot (nonev :: fst p) params) (snd p)) l l' (S w) P), LP.
    erewrite (vsum_perm (map _ l)); [reflexivity|]. now apply Permutation_map.
  Qed.
  Lemma gd_loop_ext alpha cg cg' n : (forall v, cg v = cg' v) -> forall v c, gd_loop (F:=F) alpha cg n v c = gd_loop alpha cg' n v c.
  Proof.
    intros E. induction n as [|n IH]; intros v c; cbn [gd_loop]; auto. rewrite E. destruct (cg' v) as [[cost g]| |]; cbn [rbind]; auto.
    destruct (nltb _ _); auto. destruct (rvsub _ _); cbn [rbind]; auto.
  Qed.
  Theorem lr_gd_order self w (l l' : list (list F * F)) : Permutation l l' ->
    lr_train_with_optimization self (rows_of w l) (targets_of l) = lr_train_with_optimization self (rows_of w l') (targets_of l').
  Proof.
    intros P. unfold lr_train_with_optimization, gd_optimize. erewrite gd_loop_ext; [reflexivity|]. intros v. now apply lr_grad_order.
  Qed.

  (** k-means. *)
  Lemma class_pairs {B} (f : B -> list F) (a : B -> nat) l w c :
    map (fun i => nth i (mrows (Mat (map f l) w)) []) (class_rows (map a l) c) = map f (filter (fun p => a p =? c) l).
  Proof.
    cbn [mrows]. unfold class_rows. rewrite map_length.
    assert (Q : forall pre, map (fun i => nth i (map f (pre ++ l)) []) (filter (fun i => nth i (map a (pre ++ l)) (S c) =? c) (seq (length pre) (length l))) =
      map f (filter (fun p => a p =? c) l)).
    { induction l as [|b l IH]; intros pre; cbn [length seq filter map]; auto.
      specialize (IH (pre ++ [b])). rewrite <- app_assoc in IH. cbn [app] in IH. rewrite app_length in IH. cbn [length] in IH. rewrite Nat.add_1_r in IH.
      assert (E1 : nth (length pre) (map a (pre ++ b :: l)) (S c) = a b).
      { rewrite map_app, app_nth2; rewrite map_length; auto. now rewrite Nat.sub_diag. }
      assert (E2 : nth (length pre) (map f (pre ++ b :: l)) [] = f b).
      { rewrite map_app, app_nth2; rewrite map_length; auto. now rewrite Nat.sub_diag. }
      rewrite E1. destruct (a b =? c); cbn [map]; rewrite ?E2, IH; reflexivity. }
    exact (Q []).
  Qed.
  Lemma perm_filter {B} (p : B -> bool) l l' : Permutation l l' -> Permutation (filter p l) (filter p l').
  Proof.
    induction 1 as [|x l l' H IH|x y l|l l' l'' H1 IH1 H2 IH2]; cbn; auto.
    - destruct (p x); auto.
    - destruct (p x), (p y); auto. apply perm_swap.
    - eapply perm_trans; eauto.
  Qed.
  Lemma col_mean_perm (l l' : list (list F)) w : Permutation l l' -> col_mean (Mat l w) = col_mean (Mat l' w).
  Proof.
    intros P. unfold col_mean, nrows. cbn [mrows mcols]. rewrite (Permutation_length P). apply map_ext. intros j. f_equal.
    apply vsum_perm. unfold col. cbn [mrows]. now apply Permutation_map.
  Qed.
  Lemma col_var_perm (l l' : list (list F)) w : Permutation l l' -> col_var (Mat l w) = col_var (Mat l' w).
  Proof.
    intros P. unfold col_var, nrows. cbn [mrows mcols]. rewrite (Permutation_length P). apply map_ext. intros j.
    assert (Pc : Permutation (col (Mat l w) j) (col (Mat l' w) j)) by (unfold col; cbn [mrows]; now apply Permutation_map).
    rewrite (vsum_perm _ _ Pc). f_equal. apply vsum_perm. now apply Permutation_map.
  Qed.
  Lemma class_mean_perm (a : list F -> nat) l l' w c : Permutation l l' ->
    class_mean (Mat l w) (map a l) c = class_mean (Mat l' w) (map a l') c.
  Proof.
    intros P. unfold class_mean. cbn [mcols]. pose proof (class_pairs (fun x => x) a l w c) as E. pose proof (class_pairs (fun x => x) a l' w c) as E'.
    rewrite !map_id in E, E'. rewrite E, E'. apply col_mean_perm, perm_filter, P.
  Qed.

  Lemma rmap_split {B C D} (f : B -> res (C * D)) (dC : C) (dD : D) l ps : rmap f l = Ok ps ->
    map fst ps = map (fun x => match f x with Ok (c, _) => c | _ => dC end) l /\ map snd ps = map (fun x => match f x with Ok (_, d) => d | _ => dD end) l.
  Proof.
    revert ps. induction l as [|x l IH]; intros ps E; cbn in E; [injection E as <-; auto|].
    destruct (f x) as [[c d]| |] eqn:Ex; cbn in E; try discriminate. destruct (rmap f l) as [ps'| |]; cbn in E; try discriminate.
    injection E as <-. destruct (IH ps' eq_refl) as [E1 E2]. cbn [map fst snd]. rewrite Ex. split; f_equal; auto.
  Qed.
  Lemma rmap_perm {B C} (f : B -> res C) l l' : Permutation l l' -> forall ps, rmap f l = Ok ps -> exists ps', rmap f l' = Ok ps' /\ Permutation ps ps'.
  Proof.
    induction 1 as [|x l l' H IH|x y l|l l' l'' H1 IH1 H2 IH2]; intros ps E; cbn in *; eauto.
    - destruct (f x); cbn in *; try discriminate. destruct (rmap f l) as [q| |]; cbn in *; try discriminate. injection E as <-.
      destruct (IH q eq_refl) as (q' & -> & Q). cbn. eexists. split; [reflexivity|]. now constructor.
    - destruct (f y); cbn in *; try discriminate. destruct (f x); cbn in *; try discriminate. destruct (rmap f l) as [q| |]; cbn in *; try discriminate.
      injection E as <-. eexists. split; [reflexivity|]. apply perm_swap.
    - destruct (IH1 ps E) as (q & E1 & P1). destruct (IH2 q E1) as (q' & E2 & P2). exists q'. split; auto. eapply perm_trans; eauto.
  Qed.

  Lemma closest_fails (C : matrix F) w x : (exists p, closest C w x = Ok p) \/ (forall x', closest C w x' = Panic).
  Proof.
    unfold closest. destruct (mcols C =? w); cbn [rassert]; [|auto]. destruct (mrows C) as [|c l]; [right; reflexivity|left]. cbn. eauto.
  Qed.
  Lemma find_closest_order (C : matrix F) w l l' : Permutation l l' ->
    (find_closest_centroids C (Mat l w) = Panic /\ find_closest_centroids C (Mat l' w) = Panic) \/
    exists a ds ds', find_closest_centroids C (Mat l w) = Ok (map a l, ds) /\ find_closest_centroids C (Mat l' w) = Ok (map a l', ds') /\ Permutation ds ds'.
  Proof.
    intros P. unfold find_closest_centroids. cbn [mcols mrows].
    destruct (rmap (closest C w) l) as [ps|e|] eqn:E.
    - destruct (rmap_perm _ _ _ P ps E) as (ps' & E' & Q). right. rewrite E'. cbn [rbind].
      destruct (rmap_split _ 0 nzero _ _ E) as [E1 E2]. destruct (rmap_split _ 0 nzero _ _ E') as [E1' E2'].
      eexists _, _, _. rewrite E1, E1'. split; [reflexivity|]. split; [reflexivity|]. now apply Permutation_map.
    - exfalso. clear - E. revert e E. induction l as [|x l IH]; intros e E; cbn in E; [discriminate|].
      destruct (closest_fails C w x) as [[p Hp]|Hp]; rewrite Hp in E; cbn in E; [|discriminate].
      destruct (rmap (closest C w) l); cbn in E; try discriminate. eapply IH; eauto.
    - left. split; [reflexivity|].
      assert (Hf : forall x, closest C w x = Panic).
      { destruct l as [|x l]; [discriminate|]. destruct (closest_fails C w x) as [[p Hp]|Hp]; auto. exfalso. revert E. clear - Hp.
        assert (Q : forall r, exists ps, rmap (closest C w) r = Ok ps).
        { assert (Ok' : forall y, exists q, closest C w y = Ok q).
          { intros y. destruct (closest_fails C w y) as [H|H]; auto. rewrite H in Hp. discriminate. }
          induction r as [|y r (ps & IH)]; [eexists; reflexivity|]. destruct (Ok' y) as [q Hq]. cbn. rewrite Hq, IH. cbn. eauto. }
        destruct (Q (x :: l)) as [ps ->]. discriminate. }
      destruct l' as [|y l']; [apply Permutation_sym, Permutation_nil in P; subst; discriminate|]. cbn. now rewrite Hf.
  Qed.
  Lemma lloyd_order tol k w l l' : Permutation l l' -> forall iters cost C,
    lloyd tol k (Mat l w) iters cost C = lloyd tol k (Mat l' w) iters cost C.
  Proof.
    intros P. induction iters as [|n IH]; intros cost C; cbn [lloyd]; auto.
    destruct (find_closest_order C w l l' P) as [[-> ->]|(a & ds & ds' & -> & -> & Q)]; auto. cbn [rbind].
    rewrite !update_spec by (unfold nrows; cbn [mrows]; apply map_length). cbn [rbind mcols].
    assert (EC : map (class_mean (Mat l w) (map a l)) (seq 0 k) = map (class_mean (Mat l' w) (map a l')) (seq 0 k)).
    { apply map_ext. intros c. now apply class_mean_perm. }
    rewrite EC, (vsum_perm _ _ Q). destruct (nltb _ tol); auto.
  Qed.
  Theorem km_train_order tol init (m : KMeans F) w l l' : Permutation l l' -> km_train tol init m (Mat l w) = km_train tol init m (Mat l' w).
  Proof.
    intros P. unfold km_train, init_centroids, nrows at 1 3. cbn [mrows mcols]. rewrite (Permutation_length P).
    destruct (length l' <? km_k m); auto. destruct init as [c| |]; cbn [rbind]; auto.
    destruct (negb (nrows c =? km_k m)); auto. destruct (negb (mcols c =? w)); auto. now rewrite (lloyd_order tol _ w l l' P).
  Qed.

  (** Standardizer. *)
  Theorem standardizer_order smean sstdev w l l' : Permutation l l' ->
    standardizer_fit smean sstdev (Mat l w) = standardizer_fit smean sstdev (Mat l' w).
  Proof.
    intros P. unfold standardizer_fit. rewrite (col_mean_perm l l' w P), (col_var_perm l l' w P). unfold nrows. cbn [mrows]. now rewrite (Permutation_length P).
  Qed.
End AC.
