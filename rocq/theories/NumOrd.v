(** * Order laws shared by the number instances, used by proofs about comparisons *)
From Coq Require Import Reals Bool Lra.
From Flocq Require Import Core BinarySingleNaN.
From Verif Require Import Num NumX NumF B64Lemmas.
Local Open Scope R_scope.

(** Laws of [<] that hold in all three arithmetics, NaN included. *)
Class NumOrd (F : Type) {N : Num F} : Prop := {
  no_nan : forall x y : F, nltb x y = true -> nnan x = false /\ nnan y = false;
  no_asym : forall x y : F, nltb x y = true -> nltb y x = false;
  no_ntrans : forall x y z : F, nnan y = false -> nltb x y = false -> nltb y z = false -> nltb x z = false
}.

Lemma nltb_R x y : nltb (F := R) x y = true <-> x < y.
Proof. cbn. destruct Rlt_dec; split; auto; discriminate || lra. Qed.
Lemma nltb_R_false x y : nltb (F := R) x y = false <-> y <= x.
Proof. cbn. destruct Rlt_dec; split; auto; try discriminate; intros; lra. Qed.
Lemma nleb_R x y : nleb (F := R) x y = true <-> x <= y.
Proof. cbn. destruct Rle_dec; split; auto; discriminate || lra. Qed.

(** They hold for the reals. *)
Global Instance NumOrdR : NumOrd R.
Proof.
  split; intros.
  - auto.
  - apply nltb_R_false. apply nltb_R in H. lra.
  - apply nltb_R_false. apply nltb_R_false in H0, H1. lra.
Qed.

Lemma b64_ltb_nan (x y : B64) : b64_ltb x y = true -> is_nan x = false /\ is_nan y = false.
Proof.
  intros H. split.
  - destruct x; auto; destruct y; discriminate.
  - destruct y; auto; destruct x as [[]|[]| |[] m e b]; discriminate.
Qed.

(** They hold for binary64. *)
Global Instance NumOrdB64 : NumOrd B64.
Proof.
  split; cbn [nltb nnan NumB64].
  - apply b64_ltb_nan.
  - intros x y H. destruct (b64_ltb_nan _ _ H). apply phi_ltb in H; auto. apply phi_ltb_false; auto. lra.
  - intros x y z Ny Hxy Hyz. destruct (b64_ltb x z) eqn:E; auto. destruct (b64_ltb_nan _ _ E).
    apply phi_ltb in E; auto. apply phi_ltb_false in Hxy, Hyz; auto. lra.
Qed.

Section Laws.
  Context {F : Type} {N : Num F} {O : NumOrd F}.
  Lemma no_irr (x : F) : nltb x x = false.
  Proof. destruct (nltb x x) eqn:E; auto. rewrite (no_asym _ _ E) in E. discriminate. Qed.
  Lemma no_trans (x y z : F) : nltb x y = true -> nltb y z = true -> nltb x z = true.
  Proof.
    intros A B. destruct (nltb x z) eqn:E; auto.
    rewrite (no_ntrans x z y) in A; auto. now apply no_nan in B. now apply no_asym.
  Qed.
  (** x < y <= z. *)
  Lemma no_lt_le (x y z : F) : nnan z = false -> nltb x y = true -> nltb z y = false -> nltb x z = true.
  Proof.
    intros Z A B. destruct (nltb x z) eqn:E; auto. rewrite (no_ntrans x z y) in A; auto.
  Qed.
  (** x <= y < z. *)
  Lemma no_le_lt (x y z : F) : nnan x = false -> nltb y x = false -> nltb y z = true -> nltb x z = true.
  Proof.
    intros X A B. destruct (nltb x z) eqn:E; auto. rewrite (no_ntrans y x z) in B; auto.
  Qed.
End Laws.

(** They hold for the extended reals. *)
Global Instance NumOrdX : NumOrd X.
Proof.
  split; cbn [nltb nnan NumXI].
  - intros [] []; cbn; auto; discriminate.
  - intros [x| | |] [y| | |]; cbn; auto; try discriminate. destruct (Rlt_dec x y); try discriminate. destruct (Rlt_dec y x); auto; lra.
  - intros [x| | |] [y| | |] [z| | |]; cbn; auto; try discriminate. destruct (Rlt_dec x y), (Rlt_dec y z), (Rlt_dec x z); auto; try discriminate; lra.
Qed.
