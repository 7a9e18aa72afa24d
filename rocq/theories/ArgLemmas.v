(** * What [argmin] / [argmax] return *)
From Coq Require Import List Arith Lia Bool.
From Verif Require Import Base Num NumOrd Linalg.
Import ListNotations.

Section Best.
  Context {F : Type} (better : F -> F -> bool) (ok : F -> Prop) (d : F).
  Hypothesis asym : forall x y, better x y = true -> better y x = false.
  Hypothesis ntr : forall x y z, ok y -> better x y = false -> better y z = false -> better x z = false.

  Lemma best_trans x y z : ok z -> better x y = true -> better y z = true -> better x z = true.
  Proof. intros Z A B. destruct (better x z) eqn:E; auto. rewrite (ntr x z y) in A; auto. Qed.
  Lemma best_irr x : better x x = false.
  Proof. destruct (better x x) eqn:E; auto. rewrite (asym _ _ E) in E. discriminate. Qed.

  Lemma argbest_spec l : forall i bi bv pre, length pre = i -> bi < i -> nth bi pre d = bv -> Forall ok (pre ++ l) ->
    (forall j, j < i -> better (nth j pre d) bv = false) -> (forall j, j < bi -> better bv (nth j pre d) = true) ->
    let '(k, v) := argbest better l i bi bv in
    k < length (pre ++ l) /\ nth k (pre ++ l) d = v /\
    (forall j, j < length (pre ++ l) -> better (nth j (pre ++ l) d) v = false) /\
    (forall j, j < k -> better v (nth j (pre ++ l) d) = true).
  Proof.
    induction l as [|x l IH]; intros i bi bv pre L Hb Nb O M Fi; cbn [argbest].
    - rewrite app_nil_r. split; [lia|]. split; auto. split; auto. intros j Hj. apply M. lia.
    - replace (pre ++ x :: l) with ((pre ++ [x]) ++ l) in * by (now rewrite <- app_assoc).
      assert (OP : forall j, j < i -> ok (nth j pre d)).
      { intros j Hj. rewrite Forall_forall in O. apply O. apply in_or_app. left. apply in_or_app. left. apply nth_In. lia. }
      assert (OX : ok x). { rewrite Forall_forall in O. apply O. apply in_or_app. left. apply in_or_app. right. now left. }
      destruct (better x bv) eqn:E; apply IH; auto; rewrite ?app_length; cbn [length]; try lia.
      + rewrite app_nth2, L, Nat.sub_diag by lia. reflexivity.
      + intros j Hj. destruct (Nat.eq_dec j i) as [->|].
        * rewrite app_nth2, L, Nat.sub_diag by lia. apply best_irr.
        * rewrite app_nth1 by lia. destruct (better (nth j pre d) x) eqn:E2; auto.
          rewrite (best_trans _ _ _ (ltac:(rewrite <- Nb; auto)) E2 E) in M || (pose proof (M j ltac:(lia)) as M1; rewrite (best_trans (nth j pre d) x bv) in M1; [discriminate| |auto|auto]; rewrite <- Nb; auto).
      + intros j Hj. rewrite app_nth1 by lia. destruct (better x (nth j pre d)) eqn:E2; auto.
        rewrite (ntr x (nth j pre d) bv) in E; auto.
      + rewrite app_nth1 by lia. auto.
      + intros j Hj. destruct (Nat.eq_dec j i) as [->|].
        * rewrite app_nth2, L, Nat.sub_diag by lia. exact E.
        * rewrite app_nth1 by lia. apply M. lia.
      + intros j Hj. rewrite app_nth1 by lia. auto.
  Qed.
End Best.

Section Arg.
  Context {F : Type} {N : Num F} {O : NumOrd F}.

  Theorem argmin_spec (l : list F) : l <> [] -> (forall x, In x l -> nnan x = false) ->
    exists k v, argmin l = Ok (k, v) /\ k < length l /\ nth k l nzero = v /\
      (forall j, j < length l -> nltb (nth j l nzero) v = false) /\ (forall j, j < k -> nltb v (nth j l nzero) = true).
  Proof.
    intros NE OK. destruct l as [|x l]; [easy|]. cbn [argmin].
    pose proof (argbest_spec (fun v m => nltb v m) (fun x => nnan x = false) nzero no_asym no_ntrans l 1 0 x [x] eq_refl ltac:(lia) eq_refl) as Q.
    destruct (argbest (fun v m => nltb v m) l 1 0 x) as [k v]. exists k, v. split; auto. apply Q.
    - apply Forall_forall. exact OK.
    - intros [|j] Hj; [apply no_irr|lia].
    - lia.
  Qed.
  Theorem argmax_spec (l : list F) : l <> [] -> (forall x, In x l -> nnan x = false) ->
    exists k v, argmax l = Ok (k, v) /\ k < length l /\ nth k l nzero = v /\
      (forall j, j < length l -> nltb v (nth j l nzero) = false) /\ (forall j, j < k -> nltb (nth j l nzero) v = true).
  Proof.
    intros NE OK. destruct l as [|x l]; [easy|]. cbn [argmax].
    pose proof (argbest_spec (fun v m => nltb m v) (fun x => nnan x = false) nzero (fun x y => no_asym y x)
       (fun x y z Hy A B => no_ntrans z y x Hy B A) l 1 0 x [x] eq_refl ltac:(lia) eq_refl) as Q.
    destruct (argbest (fun v m => nltb m v) l 1 0 x) as [k v]. exists k, v. split; auto. apply Q.
    - apply Forall_forall. exact OK.
    - intros [|j] Hj; [apply no_irr|lia].
    - lia.
  Qed.
End Arg.
