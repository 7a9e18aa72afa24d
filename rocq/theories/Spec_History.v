(** Specification of properties of histories of [train] calls, for any model. *)
From Coq Require Import List.
From Verif Require Import Base.
Import ListNotations.

Section History.
  Context {M D Q A : Type}.
  (** [train m d m' r]: training state [m] on [d] may return [r] and leave [m']. *)
  Variable train : M -> D -> M -> res unit -> Prop.
  Variable predict : M -> Q -> res A.

  (** The calls made so far with their results; every call returned. *)
  Inductive history (start : M) : list (D * res unit) -> M -> Prop :=
  | H_start : history start [] start
  | H_call hs m d m' r : history start hs m -> train m d m' r -> r <> Panic -> history start (hs ++ [(d, r)]) m'.

  Definition failed (c : D * res unit) : Prop := exists k, snd c = Err k.
  (** No prediction before the first successful call. *)
  Definition refuses_until_trained (start : M) : Prop :=
    forall hs m, history start hs m -> Forall failed hs -> forall q, predict m q = Err UntrainedModel.
  (** A failing call leaves every prediction as it was. *)
  Definition survives_failure (start : M) : Prop :=
    forall hs m, history start hs m -> forall d m' k, train m d m' (Err k) -> forall q, predict m' q = predict m q.
  (** A successful call leaves exactly the states it could leave on the initial model; they hold
      everything that can be observed later. *)
  Definition replaced_by_retraining (start : M) : Prop :=
    forall hs m, history start hs m -> forall d m', train m d m' (Ok tt) <-> train start d m' (Ok tt).
End History.
