(** * DBSCAN on more rows *)
From Coq Require Import List Arith Lia Bool Permutation Reals Lra ZArith Relations.
From Verif Require Import Base BaseLemmas Num NumF NumOrd Linalg LinalgR Spec_Calc Model_DBSCAN Spec_KNN Spec_DBSCAN Spec_DBSCAN2
  Proof_DBSCAN Proof_DBSCANEx Proof_DBSCAN2 Spec_Equiv Proof_Equiv Spec_DBMore.
Import ListNotations.
Local Open Scope nat_scope.

(** ** Appended rows *)
Section More.
  Context (n m : nat) (near near' : nat -> nat -> Prop) (mp : nat).
  Hypothesis NN : forall i j, i < n -> j < n -> near i j -> near' i j.
  Lemma core_more i : core n near mp i -> core (n + m) near' mp i.
  Proof. intros (Hi & S & N & L & A). split; [lia|]. exists S. repeat split; auto; destruct (A _ H); [lia|auto]. Qed.
  Lemma chain_more i j : chain n near mp i j -> chain (n + m) near' mp i j.
  Proof.
    induction 1 as [a b (A & B & C)| |]; [|apply rt_refl|eapply rt_trans; eauto].
    apply rt_step. split; [now apply core_more|]. split; [now apply core_more|]. apply NN; auto; [apply A|apply B].
  Qed.
  Lemma refines_more lab lab' : density_labels n near mp lab -> density_labels (n + m) near' mp lab' -> refines lab (firstn n lab').
  Proof.
    intros (L & C & S & _) (L' & C' & S' & _). split; [rewrite firstn_length; lia|].
    assert (B : forall i, nth i lab None <> None -> i < n).
    { intros i H. destruct (lt_dec i n); auto. rewrite nth_overflow in H; [easy|lia]. }
    assert (Fn : forall i, i < n -> nth i (firstn n lab') None = nth i lab' None).
    { intros i Hi. rewrite <- (firstn_skipn n lab') at 2. rewrite app_nth1; auto. rewrite firstn_length. lia. }
    split.
    - intros i H. pose proof (B i H). rewrite Fn by auto. apply C'; [lia|]. apply core_more. now apply C.
    - intros i j H E. assert (Hj : nth j lab None <> None) by congruence. pose proof (B i H). pose proof (B j Hj).
      assert (core n near mp i) by now apply C. assert (core n near mp j) by now apply C. rewrite !Fn by auto.
      apply S'; try now apply core_more. apply chain_more. now apply S.
  Qed.
End More.

(** ** Two groups of rows that are not near each other *)
Section Apart.
  Context (n m : nat) (near1 near2 near' : nat -> nat -> Prop) (mp : nat).
  Hypothesis N1 : forall i j, i < n -> j < n -> (near' i j <-> near1 i j).
  Hypothesis N2 : forall i j, i < m -> j < m -> (near' (n + i) (n + j) <-> near2 i j).
  Hypothesis N12 : forall i j, i < n -> j < m -> ~ near' i (n + j) /\ ~ near' (n + j) i.

  Lemma core_left i : i < n -> (core (n + m) near' mp i <-> core n near1 mp i).
  Proof.
    intros Hi. split; intros (_ & S & N & L & A).
    - split; auto. exists S. repeat split; auto; destruct (A _ H) as (Hj & Q); destruct (lt_dec j n); auto.
      + destruct (N12 i (j - n) Hi) as (K & _); [lia|]. exfalso. apply K. now replace (n + (j - n)) with j by lia.
      + now apply N1.
      + destruct (N12 i (j - n) Hi) as (K & _); [lia|]. exfalso. apply K. now replace (n + (j - n)) with j by lia.
    - split; [lia|]. exists S. repeat split; auto; destruct (A _ H) as (Hj & Q); [lia|now apply N1].
  Qed.
  Lemma core_right i : i < m -> (core (n + m) near' mp (n + i) <-> core m near2 mp i).
  Proof.
    intros Hi. split; intros (_ & S & N & L & A).
    - split; auto.
      assert (G : forall j, In j S -> n <= j < n + m).
      { intros j Hj. destruct (A j Hj) as (Lj & Q). destruct (lt_dec j n); [|lia]. destruct (N12 j i ltac:(auto) Hi) as (_ & K). now elim K. }
      exists (map (fun j => j - n) S). split; [|split].
      + clear L A. induction S as [|x S IH]; [constructor|]. inversion N; subst. cbn. constructor.
        * intros H. apply in_map_iff in H. destruct H as (z & E & Hz). apply H1. pose proof (G z (or_intror Hz)). pose proof (G x (or_introl eq_refl)).
          now replace x with z by lia.
        * apply IH; auto. intros j Hj. apply G. now right.
      + now rewrite map_length.
      + intros j Hj. apply in_map_iff in Hj. destruct Hj as (z & <- & Hz). pose proof (G z Hz). destruct (A z Hz) as (Lz & Q). split; [lia|].
        apply N2; [auto|lia|]. now replace (n + (z - n)) with z by lia.
    - split; [lia|]. exists (map (fun j => n + j) S). split; [|split].
      + clear L A. induction S as [|x S IH]; [constructor|]. inversion N; subst. cbn. constructor; auto.
        intros H. apply in_map_iff in H. destruct H as (z & E & Hz). apply H1. now replace x with z by lia.
      + now rewrite map_length.
      + intros j Hj. apply in_map_iff in Hj. destruct Hj as (z & <- & Hz). destruct (A z Hz). split; [lia|]. now apply N2.
  Qed.
  Lemma chain_side i j : chain (n + m) near' mp i j ->
    i = j \/ (i < n /\ j < n /\ chain n near1 mp i j) \/ (exists a b, i = n + a /\ j = n + b /\ chain m near2 mp a b).
  Proof.
    induction 1 as [i j (A & B & C)| |i j k _ IH1 _ IH2]; [|now left|].
    - right. destruct (lt_dec i n) as [Hi|Hi], (lt_dec j n) as [Hj|Hj].
      + left. split; [auto|]. split; [auto|]. apply rt_step. split; [now apply core_left|]. split; [now apply core_left|]. now apply N1.
      + exfalso. destruct B as (B & _). destruct (N12 i (j - n) Hi) as (K & _); [lia|]. apply K. now replace (n + (j - n)) with j by lia.
      + exfalso. destruct A as (A & _). destruct (N12 j (i - n) Hj) as (_ & K); [lia|]. apply K. now replace (n + (i - n)) with i by lia.
      + right. pose proof (proj1 A). pose proof (proj1 B). exists (i - n), (j - n). replace (n + (i - n)) with i by lia. replace (n + (j - n)) with j by lia.
        repeat split; auto. apply rt_step.
        split; [apply core_right; [lia|]; now replace (n + (i - n)) with i by lia|]. split; [apply core_right; [lia|]; now replace (n + (j - n)) with j by lia|].
        apply N2; try lia. replace (n + (i - n)) with i by lia. now replace (n + (j - n)) with j by lia.
    - destruct IH1 as [->|[(A & B & C)|(a & b & -> & -> & C)]]; [exact IH2| |];
        (destruct IH2 as [<-|[(A' & B' & C')|(a' & b' & E & -> & C')]]; [eauto 8| |]); try lia.
      + right. left. repeat split; auto. eapply rt_trans; eauto.
      + right. right. exists a, b'. repeat split; auto. assert (a' = b) as -> by lia. eapply rt_trans; eauto.
  Qed.
  Lemma chain_left i j : chain n near1 mp i j -> chain (n + m) near' mp i j.
  Proof.
    induction 1 as [a b (A & B & C)| |]; [|apply rt_refl|eapply rt_trans; eauto]. pose proof (proj1 A). pose proof (proj1 B).
    apply rt_step. split; [now apply core_left|]. split; [now apply core_left|]. now apply N1.
  Qed.
  Lemma chain_right i j : chain m near2 mp i j -> chain (n + m) near' mp (n + i) (n + j).
  Proof.
    induction 1 as [a b (A & B & C)| |]; [|apply rt_refl|eapply rt_trans; eauto]. pose proof (proj1 A). pose proof (proj1 B).
    apply rt_step. split; [now apply core_right|]. split; [now apply core_right|]. now apply N2.
  Qed.
  Lemma apart_labels lab1 k lab2 : density_labels n near1 mp lab1 -> (forall i c, nth i lab1 None = Some c -> c < k) -> (forall c, c < k -> exists i, nth i lab1 None = Some c) ->
    density_labels m near2 mp lab2 -> density_labels (n + m) near' mp (lab1 ++ map (option_map (fun c => k + c)) lab2).
  Proof.
    intros (L1 & C1 & S1 & O1) Hlt Hex (L2 & C2 & S2 & O2).
    set (lab := lab1 ++ map (option_map (fun c => k + c)) lab2).
    assert (El : forall i, i < n -> nth i lab None = nth i lab1 None) by (intros i Hi; unfold lab; now rewrite app_nth1 by lia).
    assert (Er : forall i, i < m -> nth (n + i) lab None = option_map (fun c => k + c) (nth i lab2 None)).
    { intros i Hi. unfold lab. rewrite app_nth2 by lia. rewrite L1. replace (n + i - n) with i by lia.
      apply (nth_map (option_map (fun c => k + c)) lab2 i None None). lia. }
    split; [unfold lab; rewrite app_length, map_length; lia|]. split; [|split].
    - intros i Hi. destruct (lt_dec i n) as [H|H].
      + rewrite El by auto. rewrite (core_left i H). now apply C1.
      + replace i with (n + (i - n)) by lia. rewrite Er by lia. rewrite core_right by lia. rewrite <- C2 by lia. destruct (nth (i - n) lab2 None); cbn; split; congruence.
    - intros i j Hi Hj. pose proof (proj1 Hi). pose proof (proj1 Hj). split.
      + intros E. destruct (lt_dec i n) as [Hin|Hin], (lt_dec j n) as [Hjn|Hjn].
        * rewrite !El in E by auto. apply chain_left. apply S1; [now apply core_left|now apply core_left|exact E].
        * exfalso. rewrite El in E by auto. replace j with (n + (j - n)) in E by lia. rewrite Er in E by lia.
          apply core_left in Hi; auto. assert (Q : nth i lab1 None <> None) by (now apply C1). destruct (nth i lab1 None) as [c|] eqn:Ec; [|easy].
          specialize (Hlt i c Ec). destruct (nth (j - n) lab2 None); cbn in E; [|discriminate]. injection E. lia.
        * exfalso. rewrite (El j) in E by auto. replace i with (n + (i - n)) in E by lia. rewrite Er in E by lia.
          apply core_left in Hj; auto. assert (Q : nth j lab1 None <> None) by (now apply C1). destruct (nth j lab1 None) as [c|] eqn:Ec; [|easy].
          specialize (Hlt j c Ec). destruct (nth (i - n) lab2 None); cbn in E; [|discriminate]. injection E. lia.
        * assert (Ei : i = n + (i - n)) by lia. assert (Ej : j = n + (j - n)) by lia. rewrite Ei, Ej in E. rewrite !Er in E by lia. rewrite Ei, Ej.
          rewrite Ei in Hi. rewrite Ej in Hj. apply core_right in Hi; [|lia]. apply core_right in Hj; [|lia].
          apply chain_right. apply S2; auto. destruct (nth (i - n) lab2 None), (nth (j - n) lab2 None); cbn in E; try discriminate; auto. injection E as E. f_equal. lia.
      + intros H'. apply chain_side in H'. destruct H' as [->|[(A & B & C)|(a & b & -> & -> & C)]]; auto.
        * rewrite !El by auto. apply S1; [now apply core_left|now apply core_left|exact C].
        * rewrite !Er by lia. f_equal. apply S2; [apply core_right; auto; lia|apply core_right; auto; lia|exact C].
    - intros i c c' E Hc. destruct (lt_dec i n) as [Hin|Hin].
      + rewrite El in E by auto. destruct (O1 i c c' E Hc) as (j & Hj & Ej). exists j. split; auto. rewrite El by lia. exact Ej.
      + assert (i < n + m).
        { destruct (lt_dec i (n + m)); auto. rewrite nth_overflow in E; [discriminate|]. unfold lab. rewrite app_length, map_length. lia. }
        replace i with (n + (i - n)) in E by lia. rewrite Er in E by lia. destruct (nth (i - n) lab2 None) as [d|] eqn:Ed; [|discriminate]. cbn in E. injection E as <-.
        destruct (lt_dec c' k) as [Hk|Hk].
        * destruct (Hex c' Hk) as (j & Ej). assert (j < n) by (destruct (lt_dec j n); auto; rewrite nth_overflow in Ej; [discriminate|lia]).
          exists j. split; [lia|]. now rewrite El.
        * destruct (O2 (i - n) d (c' - k) Ed) as (j & Hj & Ej); [lia|]. exists (n + j). split; [lia|]. rewrite Er by lia. rewrite Ej. cbn. f_equal. lia.
  Qed.
End Apart.

(** ** Every row [k] times *)
Lemma times_nth {A} (d : A) k (l : list A) i : i < k * length l -> nth i (times k l) d = nth (i mod length l) l d.
Proof.
  unfold times. revert i. induction k as [|k IH]; intros i Hi; [cbn in Hi; lia|]. cbn [repeat concat].
  destruct (lt_dec i (length l)) as [H|H].
  - rewrite app_nth1 by auto. now rewrite Nat.mod_small.
  - rewrite app_nth2 by lia. rewrite IH by (cbn in Hi; lia). f_equal.
    replace (i mod length l) with ((i - length l + 1 * length l) mod length l) by (f_equal; lia). rewrite Nat.mod_add; auto. destruct l; cbn in *; lia.
Qed.
Lemma NoDup_join {A} (l1 l2 : list A) : NoDup l1 -> NoDup l2 -> (forall a, In a l1 -> In a l2 -> False) -> NoDup (l1 ++ l2).
Proof.
  intros N1 N2 H. induction l1 as [|x l1 IH]; auto. inversion N1; subst. cbn. constructor.
  - intros Hx. apply in_app_or in Hx. destruct Hx as [Hx|Hx]; [auto|]. exact (H x (or_introl eq_refl) Hx).
  - apply IH; auto. intros a Ha. apply H. now right.
Qed.
Section Copies.
  Context (n k : nat) (near near' : nat -> nat -> Prop) (mp : nat).
  Hypothesis K : 0 < k.
  Hypothesis N0 : 0 < n.
  Hypothesis NN : forall i j, i < k * n -> j < k * n -> (near' i j <-> near (i mod n) (j mod n)).
  Hypothesis Refl : forall i, i < n -> near i i.

  Let n0 : n <> 0. Proof. lia. Qed.
  Let md i : i mod n < n. Proof. now apply Nat.mod_upper_bound. Qed.
  Lemma copy_lt c j : c < k -> j < n -> c * n + j < k * n.
  Proof. intros. nia. Qed.
  Lemma copy_mod c j : j < n -> (c * n + j) mod n = j.
  Proof. intros H. rewrite Nat.add_comm, Nat.mod_add by exact n0. now apply Nat.mod_small. Qed.
  Lemma NoDup_copies S : NoDup S -> (forall j, In j S -> j < n) -> forall cs, NoDup cs -> NoDup (flat_map (fun c => map (fun j => c * n + j) S) cs).
  Proof.
    intros NS HS cs. induction cs as [|c cs IH]; intros Nc; [constructor|]. inversion Nc; subst. cbn [flat_map]. apply NoDup_join.
    - clear IH. induction S as [|x S IHS]; [constructor|]. inversion NS; subst. cbn. constructor.
      + intros Hx. apply in_map_iff in Hx. destruct Hx as (z & E & Hz). apply H3. now replace x with z by lia.
      + apply IHS; auto. intros j Hj. apply HS. now right.
    - now apply IH.
    - intros a Ha Hb. apply in_map_iff in Ha. destruct Ha as (j & <- & Hj). apply in_flat_map in Hb. destruct Hb as (c' & Hc' & Hb).
      apply in_map_iff in Hb. destruct Hb as (j' & E & Hj'). pose proof (HS j Hj). pose proof (HS j' Hj').
      assert (c' = c) by nia. subst c'. contradiction.
  Qed.
  Lemma copies_length S cs : length (flat_map (fun c => map (fun j => c * n + j) S) cs) = length cs * length S.
  Proof. induction cs as [|c cs IH]; [reflexivity|]. cbn [flat_map length]. rewrite app_length, map_length, IH. reflexivity. Qed.
  Lemma NoDup_firstn {A} q (S : list A) : NoDup S -> NoDup (firstn q S).
  Proof.
    revert S. induction q as [|q IH]; intros [|x S] N; cbn; try constructor; inversion N; subst; auto.
    intros H. apply H1. rewrite <- (firstn_skipn q S). apply in_or_app. now left.
  Qed.
  Lemma core_copies i : i < k * n -> (core (k * n) near' (k * mp) i <-> core n near mp (i mod n)).
  Proof.
    intros Hi. split; intros (_ & S & N & L & A).
    - split; [apply md|]. set (T := nodup Nat.eq_dec (map (fun j => j mod n) S)).
      assert (HT : forall j, In j T -> j < n /\ near (i mod n) j).
      { intros j Hj. apply nodup_In in Hj. apply in_map_iff in Hj. destruct Hj as (z & <- & Hz). destruct (A z Hz). split; [apply md|now apply NN]. }
      assert (Len : mp <= length T).
      { assert (Q : length S <= length (flat_map (fun c => map (fun j => c * n + j) T) (seq 0 k))).
        { apply NoDup_incl_length; auto. intros z Hz. apply in_flat_map. exists (z / n). destruct (A z Hz) as (Lz & _). split.
          - apply in_seq. split; [lia|]. apply Nat.div_lt_upper_bound; [lia|]. lia.
          - apply in_map_iff. exists (z mod n). split; [rewrite (Nat.div_mod z n) at 3; [lia|exact n0]|]. apply nodup_In. apply in_map_iff. eauto. }
        rewrite copies_length, seq_length, L in Q. nia. }
      exists (firstn mp T). split; [apply NoDup_firstn, NoDup_nodup|]. split; [rewrite firstn_length; lia|].
      intros j Hj. apply HT. rewrite <- (firstn_skipn mp T). apply in_or_app. now left.
    - split; auto. exists (flat_map (fun c => map (fun j => c * n + j) S) (seq 0 k)). split; [|split].
      + apply NoDup_copies; auto; [intros j Hj; now apply A|apply seq_NoDup].
      + rewrite copies_length, seq_length, L. reflexivity.
      + intros z Hz. apply in_flat_map in Hz. destruct Hz as (c & Hc & Hz). apply in_seq in Hc. apply in_map_iff in Hz. destruct Hz as (j & <- & Hj).
        destruct (A j Hj). assert (c * n + j < k * n) by (apply copy_lt; lia). split; auto. apply NN; auto. now rewrite copy_mod.
  Qed.
  Lemma chain_copies_to i j : chain (k * n) near' (k * mp) i j -> chain n near mp (i mod n) (j mod n).
  Proof.
    induction 1 as [a b (A & B & C)| |]; [|apply rt_refl|eapply rt_trans; eauto]. pose proof (proj1 A). pose proof (proj1 B).
    apply rt_step. split; [now apply core_copies|]. split; [now apply core_copies|]. now apply NN.
  Qed.
  Lemma chain_copies_from a b : chain n near mp a b -> core n near mp a -> forall i j, i < k * n -> j < k * n -> i mod n = a -> j mod n = b -> chain (k * n) near' (k * mp) i j.
  Proof.
    intros H. apply clos_rt_rt1n in H. induction H as [a|a b c (A & B & C) _ IH]; intros Ha i j Hi Hj Ei Ej.
    - apply rt_step. split; [apply core_copies; auto; now rewrite Ei|]. split; [apply core_copies; auto; now rewrite Ej|]. apply NN; auto. rewrite Ei, Ej. apply Refl, Ha.
    - pose proof (proj1 B) as Hb. assert (Lb : b < k * n) by nia.
      apply (rt_trans _ _ _ b).
      + apply rt_step. split; [apply core_copies; auto; now rewrite Ei|]. split; [apply core_copies; auto; now rewrite Nat.mod_small|]. apply NN; auto. now rewrite Ei, Nat.mod_small.
      + apply IH; auto. now apply Nat.mod_small.
  Qed.
  Lemma copies_labels lab : density_labels n near mp lab -> density_labels (k * n) near' (k * mp) (times k lab).
  Proof.
    intros (L & C & S & O). assert (E : forall i, i < k * n -> nth i (times k lab) None = nth (i mod n) lab None) by (intros i Hi; rewrite times_nth, L by (rewrite L; exact Hi); reflexivity).
    split; [rewrite times_length, L; reflexivity|]. split; [|split].
    - intros i Hi. rewrite E by auto. rewrite core_copies by auto. apply C, md.
    - intros i j Hi Hj. pose proof (proj1 Hi) as Li. pose proof (proj1 Hj) as Lj. rewrite !E by auto. apply core_copies in Hi; auto. apply core_copies in Hj; auto. rewrite S by auto. split.
      + intros H. now apply (chain_copies_from _ _ H).
      + apply chain_copies_to.
    - intros i c c' Ei Hc. assert (Li : i < k * n) by (destruct (lt_dec i (k * n)); auto; rewrite nth_overflow in Ei; [discriminate|rewrite times_length, L; lia]).
      rewrite E in Ei by auto. destruct (O _ _ _ Ei Hc) as (j & Hj & Ej). pose proof (md i). exists j.
      assert (j < i) by (pose proof (Nat.mod_le i n n0); lia). split; auto. rewrite E by lia. rewrite Nat.mod_small by lia. exact Ej.
  Qed.
End Copies.

(** ** Training *)
Lemma euclid_self d a : euclid d a a = 0%R.
Proof.
  unfold euclid. transitivity (sqrt 0); [|apply sqrt_0]. f_equal. induction (seq 0 d) as [|x l IH]; cbn [map fold_right]; [reflexivity|]. rewrite IH. ring.
Qed.
Lemma gets_labels_iff {F} {N : Num F} eps mp (data : matrix F) w k lab : clustering eps mp data (nrows data) = Some (w, k) ->
  (gets_labels eps mp data lab <-> lab = w_clusters w).
Proof.
  intros E. split.
  - intros H. set (m := {| db_eps := eps; db_min_points := mp; db_clusters := None; db_predictive := false; db_cluster_data := None |}).
    assert (T : exists m1, dbscan_train (nrows data) m data = Some m1 /\ db_clusters m1 = Some (w_clusters w)).
    { unfold dbscan_train. change (db_eps m) with eps. change (db_min_points m) with mp. rewrite E. eexists. split; reflexivity. }
    destruct T as (m1 & T & L). destruct (H m eq_refl eq_refl) as (m2 & T2 & L2). congruence.
  - intros -> m E1 E2. unfold dbscan_train. rewrite E1, E2, E. eexists. split; reflexivity.
Qed.
Lemma labels_B (eps : B64) mp data : exists lab k, gets_labels eps mp data lab /\
  density_labels (nrows data) (fun i j => nltb (edist (nth i (mrows data) []) (nth j (mrows data) [])) eps = true) mp lab /\
  (forall i c, nth i lab None = Some c -> c < k) /\ (forall c, c < k -> exists i, nth i lab None = Some c).
Proof. destruct (clusters_b64 eps mp data) as (w & k & E & H). exists (w_clusters w), k. split; auto. now apply (gets_labels_iff _ _ _ w k). Qed.
Lemma labels_R (eps : R) mp data : mwf data -> exists lab, gets_labels eps mp data lab /\ density_labels (nrows data) (near_R data eps) mp lab.
Proof. intros W. destruct (clusters_real eps mp data W) as (w & k & E & H & _). exists (w_clusters w). split; auto. now apply (gets_labels_iff _ _ _ w k). Qed.
Lemma gets_labels_unique_B (eps : B64) mp data lab lab' : gets_labels eps mp data lab -> gets_labels eps mp data lab' -> lab = lab'.
Proof.
  intros H H'. destruct (clusters_b64 eps mp data) as (w & k & E & _). apply (gets_labels_iff _ _ _ w k) in H; auto. apply (gets_labels_iff _ _ _ w k) in H'; auto. congruence.
Qed.
Lemma gets_labels_unique_R (eps : R) mp data lab lab' : mwf data -> gets_labels eps mp data lab -> gets_labels eps mp data lab' -> lab = lab'.
Proof.
  intros W H H'. destruct (clusters_real eps mp data W) as (w & k & E & _). apply (gets_labels_iff _ _ _ w k) in H; auto. apply (gets_labels_iff _ _ _ w k) in H'; auto. congruence.
Qed.
Lemma more_nrows {F} (data : matrix F) extra : nrows (more_rows data extra) = nrows data + length extra.
Proof. unfold nrows, more_rows. cbn [mrows]. apply app_length. Qed.
Lemma more_old {F} (data : matrix F) extra i : i < nrows data -> nth i (mrows (more_rows data extra)) [] = nth i (mrows data) [].
Proof. intros H. unfold more_rows. cbn [mrows]. now apply app_nth1. Qed.
Lemma more_new {F} (data : matrix F) extra i : nth (nrows data + i) (mrows (more_rows data extra)) [] = nth i extra [].
Proof. unfold more_rows. cbn [mrows]. rewrite app_nth2 by (unfold nrows; lia). f_equal. unfold nrows. lia. Qed.

Theorem more_rows_merge (eps : B64) mp data extra lab lab' : gets_labels eps mp data lab -> gets_labels eps mp (more_rows data extra) lab' ->
  refines lab (firstn (nrows data) lab').
Proof.
  intros H H'. destruct (labels_B eps mp data) as (l & k & G & D & _). destruct (labels_B eps mp (more_rows data extra)) as (l' & k' & G' & D' & _).
  rewrite (gets_labels_unique_B _ _ _ _ _ H G), (gets_labels_unique_B _ _ _ _ _ H' G'). rewrite more_nrows in D'.
  apply (refines_more _ _ _ _ mp) with (2 := D) (3 := D'). intros i j Hi Hj. now rewrite !more_old.
Qed.
Theorem apart_rows (eps : B64) mp data extra lab labx lab' :
  (forall r e, In r (mrows data) -> In e extra -> nltb (edist r e) eps = false) ->
  gets_labels eps mp data lab -> gets_labels eps mp (Mat extra (mcols data)) labx -> gets_labels eps mp (more_rows data extra) lab' ->
  exists k, (forall i c, nth i lab None = Some c -> c < k) /\ (forall c, c < k -> exists i, nth i lab None = Some c) /\
    lab' = lab ++ map (option_map (fun c => k + c)) labx.
Proof.
  intros HA H Hx H'. destruct (labels_B eps mp data) as (l & k & G & D & K1 & K2). destruct (labels_B eps mp (Mat extra (mcols data))) as (lx & kx & Gx & Dx & _).
  destruct (labels_B eps mp (more_rows data extra)) as (l' & k' & G' & D' & _).
  rewrite (gets_labels_unique_B _ _ _ _ _ H G), (gets_labels_unique_B _ _ _ _ _ Hx Gx), (gets_labels_unique_B _ _ _ _ _ H' G'). exists k. split; auto. split; auto.
  rewrite more_nrows in D'. apply (density_unique _ _ _ _ _ D'). eapply apart_labels; eauto.
  - intros i j Hi Hj. cbn beta. now rewrite !more_old.
  - intros i j Hi Hj. cbn beta. rewrite !more_new. reflexivity.
  - intros i j Hi Hj. cbn beta. rewrite more_new, more_old by auto. change (j < length extra) in Hj.
    assert (E : nltb (edist (nth i (mrows data) []) (nth j extra [])) eps = false) by (apply HA; now apply nth_In).
    split; [now rewrite E|]. rewrite edist_sym_B64. now rewrite E.
Qed.
Theorem copies_same (eps : R) mp data k lab : mwf data -> (0 < eps)%R -> 0 < k -> gets_labels eps mp data lab ->
  gets_labels eps (k * mp) (Mat (times k (mrows data)) (mcols data)) (times k lab).
Proof.
  intros W He Hk H. destruct (labels_R eps mp data W) as (l & G & D). rewrite (gets_labels_unique_R _ _ _ _ _ W H G). clear H lab G.
  pose proof (times_wf k data W) as W'. set (data' := Mat (times k (mrows data)) (mcols data)) in *.
  assert (NR : nrows data' = k * nrows data) by (unfold data', nrows; cbn [mrows]; apply times_length).
  destruct (labels_R eps (k * mp) data' W') as (l' & G' & D'). rewrite NR in D'.
  enough (Q : l' = times k l) by (rewrite <- Q; exact G'). apply (density_unique _ _ _ _ _ D').
  destruct (Nat.eq_dec (nrows data) 0) as [Z|Z].
  { assert (l = []) as -> by (destruct D as (L & _); rewrite Z in L; now apply length_zero_iff_nil). rewrite Z. rewrite Nat.mul_0_r.
    assert (times k (@nil (option nat)) = []) as -> by (apply length_zero_iff_nil; rewrite times_length; cbn; lia).
    split; [reflexivity|]. split; [intros; lia|]. split; [intros i j (? & _); lia|]. intros [|] ? ?; discriminate. }
  apply (copies_labels (nrows data) k (near_R data eps)); auto; try lia.
  - intros i j Hi Hj. unfold near_R, data'. cbn [mrows mcols]. rewrite !times_nth by (unfold nrows in *; lia). reflexivity.
  - intros i Hi. unfold near_R. now rewrite euclid_self.
Qed.
Theorem single_linkage (eps : R) data lab : mwf data -> (0 < eps)%R -> gets_labels eps 1 data lab ->
  (forall i, i < nrows data -> nth i lab None <> None) /\
  (forall i j, i < nrows data -> j < nrows data -> (nth i lab None = nth j lab None <-> linked (nrows data) (near_R data eps) i j)).
Proof.
  intros W He H. destruct (labels_R eps 1 data W) as (l & G & (L & C & S & _)). rewrite (gets_labels_unique_R _ _ _ _ _ W H G).
  assert (Co : forall i, i < nrows data -> core (nrows data) (near_R data eps) 1 i).
  { intros i Hi. split; auto. exists [i]. split; [repeat constructor; easy|]. split; auto. intros j [<-|[]]. split; auto.
    unfold near_R. now rewrite euclid_self. }
  split; [intros i Hi; now apply C, Co|]. intros i j Hi Hj. rewrite S by auto. unfold chain, linked. split.
  - assert (T : forall a b, clos_refl_trans nat (fun i j => core (nrows data) (near_R data eps) 1 i /\ core (nrows data) (near_R data eps) 1 j /\ near_R data eps i j) a b ->
      clos_refl_trans nat (fun i j => i < nrows data /\ j < nrows data /\ near_R data eps i j) a b).
    { induction 1 as [a b ((A & _) & (B & _) & Q)| |]; [apply rt_step; auto|apply rt_refl|eapply rt_trans; eauto]. }
    apply T.
  - assert (T : forall a b, clos_refl_trans nat (fun i j => i < nrows data /\ j < nrows data /\ near_R data eps i j) a b ->
      clos_refl_trans nat (fun i j => core (nrows data) (near_R data eps) 1 i /\ core (nrows data) (near_R data eps) 1 j /\ near_R data eps i j) a b).
    { induction 1 as [a b (A & B & Q)| |]; [apply rt_step; auto|apply rt_refl|eapply rt_trans; eauto]. }
    apply T.
Qed.

(** ** Concrete cases *)
Lemma b64_case eps mp (l : list Z) lab : option_map (fun p => w_clusters (fst p)) (clustering (b64_of_Z eps) mp (zmat l) (length l)) = Some lab ->
  gets_labels (b64_of_Z eps) mp (zmat l) lab.
Proof.
  intros H. replace (length l) with (nrows (zmat l)) in H by (unfold nrows, zmat; cbn [mrows]; apply map_length).
  destruct (clustering _ _ _ _) as [[w k]|] eqn:E; [|discriminate]. injection H as <-. now apply (gets_labels_iff _ _ _ w k).
Qed.
Lemma merge_case : gets_labels (b64_of_Z 3) 1 (zmat [0; 4]%Z) [Some 0; Some 1] /\
  gets_labels (b64_of_Z 3) 1 (more_rows (zmat [0; 4]%Z) [[b64_of_Z 2]]) [Some 0; Some 0; Some 0].
Proof. split; [apply b64_case|apply (b64_case 3 1 [0; 4; 2]%Z)]; vm_compute; reflexivity. Qed.
Lemma apart_case : gets_labels (b64_of_Z 3) 2 (zmat [0; 2]%Z) [Some 0; Some 0] /\
  gets_labels (b64_of_Z 3) 2 (zmat [30; 20; 21]%Z) [None; Some 0; Some 0] /\
  gets_labels (b64_of_Z 3) 2 (more_rows (zmat [0; 2]%Z) (mrows (zmat [30; 20; 21]%Z))) [Some 0; Some 0; None; Some 1; Some 1] /\
  forall r e, In r (mrows (zmat [0; 2]%Z)) -> In e (mrows (zmat [30; 20; 21]%Z)) -> nltb (edist r e) (b64_of_Z 3) = false.
Proof.
  split; [apply b64_case; vm_compute; reflexivity|]. split; [apply b64_case; vm_compute; reflexivity|].
  split; [apply (b64_case 3 2 [0; 2; 30; 20; 21]%Z); vm_compute; reflexivity|].
  intros r e Hr He. cbn [zmat mrows map In] in Hr, He.
  destruct Hr as [<-|[<-|[]]], He as [<-|[<-|[<-|[]]]]; vm_compute; reflexivity.
Qed.
Lemma copies_case : let data := Mat [[0%R]; [1%R]; [5%R]] 1 in mwf data /\ (0 < 2)%R /\ (exists lab, gets_labels 2%R 2 data lab) /\ exists lab, gets_labels 2%R 1 data lab.
Proof.
  assert (W : mwf (Mat [[0%R]; [1%R]; [5%R]] 1)) by (repeat constructor). cbv zeta. split; [exact W|]. split; [lra|].
  split; [destruct (labels_R 2%R 2 _ W) as (l & H & _)|destruct (labels_R 2%R 1 _ W) as (l & H & _)]; eauto.
Qed.
