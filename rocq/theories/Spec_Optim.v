(** Specification for the optimisers: what one documented step is, what an epoch is. *)
From Coq Require Import List Arith Reals Permutation.
From Verif Require Import Base Num Linalg.
Import ListNotations.
Local Open Scope num_scope.

Section Spec.
  Context {F : Type} {N : Num F}.

  Definition at_ (v : list F) (j : nat) : F := nth j v nzero.

  (** One gradient-descent step with gradient [g]. *)
  Definition gd_next (alpha : F) (x g x' : list F) : Prop :=
    length g = length x /\ length x' = length x /\ forall j, j < length x -> at_ x' j = at_ x j - at_ g j * alpha.

  (** The cost the [i]-th cost is compared with: the previous one, zero at the beginning. *)
  Definition previous (cs : list F) (i : nat) : F := match i with O => nzero | S i' => nth i' cs nzero end.

  (** One step of a stochastic optimiser: parameters [w], memory [a], gradient [g]. *)
  Definition sgd_next (alpha mu : F) (w a g w' a' : list F) : Prop :=
    length a' = length w /\ length w' = length w /\ forall j, j < length w ->
      at_ a' j = at_ g j * mu + at_ a j * alpha /\
      at_ w' j = at_ w j - (at_ a j * (- alpha) + at_ a' j * (nonev + alpha)).
  Definition ada_next (alpha tau : F) (w a g w' a' : list F) : Prop :=
    length a' = length w /\ length w' = length w /\ forall j, j < length w ->
      at_ a' j = at_ a j + at_ g j * at_ g j /\
      at_ w' j = at_ w j - alpha * (at_ g j / (tau + nsqrt (at_ a' j))).
  Definition rms_next (rate decay eps : F) (w a g w' a' : list F) : Prop :=
    length a' = length w /\ length w' = length w /\ forall j, j < length w ->
      at_ a' j = at_ a j * decay + at_ g j * at_ g j * (nonev - decay) /\
      at_ w' j = at_ w j - at_ g j * rate / nsqrt (at_ a' j + eps).

  Section Epochs.
    Variable cg : list F -> matrix F -> matrix F -> res (F * list F).
    Variable next : list F -> list F -> list F -> list F -> list F -> Prop.
    Variables inputs targets : matrix F.

    (** [sweep order w a cost w' a' cost']: for every sample in [order], in that order, the
        gradient is evaluated once at the current parameters on that input row with the target row
        of the same index, and a step is made; costs are added up. *)
    Inductive sweep : list nat -> list F -> list F -> F -> list F -> list F -> F -> Prop :=
    | sweep_done w a c : sweep [] w a c w a c
    | sweep_sample i order w a c x t ci g w1 a1 w' a' c' :
        nth_error (mrows inputs) i = Some x -> nth_error (mrows targets) i = Some t ->
        cg w (Mat [x] (mcols inputs)) (Mat [t] (mcols targets)) = Ok (ci, g) ->
        length g = length w -> next w a g w1 a1 -> sweep order w1 a1 (c + ci) w' a' c' ->
        sweep (i :: order) w a c w' a' c'.

    (** [epochs eps iters prev w a orders w']: at most [iters] sweeps, one for each element of
        [orders]; it goes on as long as the mean cost of the sweep differs from the one before
        ([prev] for the first) by at least [eps]. *)
    Inductive epochs (eps : F) : nat -> F -> list F -> list F -> list (list nat) -> list F -> Prop :=
    | epochs_out prev w a : epochs eps 0 prev w a [] w
    | epochs_stop n prev w a order w' a' c' :
        sweep order w a nzero w' a' c' ->
        nltb (nabs (prev - c' / nofnat (nrows inputs))) eps = true ->
        epochs eps (S n) prev w a [order] w'
    | epochs_go n prev w a order w1 a1 c1 orders w' :
        sweep order w a nzero w1 a1 c1 ->
        nltb (nabs (prev - c1 / nofnat (nrows inputs))) eps = false ->
        epochs eps n (c1 / nofnat (nrows inputs)) w1 a1 orders w' ->
        epochs eps (S n) prev w a (order :: orders) w'.
  End Epochs.
End Spec.

(** [f] has gradient [G] with Lipschitz constant [L], in the form of the usual upper bound. *)
Definition smooth (n : nat) (f : list R -> R) (G : list R -> list R) (L : R) : Prop :=
  forall x, length x = n -> length (G x) = n /\
    forall y, length y = n -> (f y <= f x + dot (G x) (vsub y x) + L / 2 * dot (vsub y x) (vsub y x))%R.
(** [f] lies above its tangents. *)
Definition convex (n : nat) (f : list R -> R) (G : list R -> list R) : Prop :=
  forall x y, length x = n -> length y = n -> (f x + dot (G x) (vsub y x) <= f y)%R.
(** The quadratic cost [1/2 x'Ax - b'x]. *)
Definition quadratic (A : matrix R) (b x : list R) : R := (/ 2 * dot x (mat_vec A x) - dot b x)%R.
Definition quadratic_grad (A : matrix R) (b x : list R) : list R := vsub (mat_vec A x) b.

(** A sequence of steps on given gradients. *)
Fixpoint run_steps {S G} (step : S -> G -> res S) (st : S) (gs : list G) : res S :=
  match gs with [] => Ok st | g :: gs' => let? st' := step st g in run_steps step st' gs' end.
