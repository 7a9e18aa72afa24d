(** * Model of [src/learning/optim/grad_desc.rs]

    [Optimizable::compute_grad] (src/lib.rs lines 174-186) is a parameter: a function of the
    parameters, the inputs and the targets returning the cost and the gradient, or panicking.
    Randomness ([in_place_fisher_yates]) is the choice oracle [Rnd]. *)
From Coq Require Import List Arith Bool.
From Verif Require Import Base Num Linalg Model_Rand.
Import ListNotations.
Local Open Scope num_scope.

Section Optim.
  Context {F : Type} {N : Num F}.

  (** A power of ten, for the constant of grad_desc.rs line 18. *)
  Fixpoint pow10 (n : nat) : F := match n with O => nonev | S n' => nofnat 10 * pow10 n' end.
  (** grad_desc.rs line 18: [1e-20]. *)
  Definition learning_eps : F := nonev / pow10 20.

  (** [&Vector - Vector] and [&Vector + Vector] assert equal sizes ([rulinalg]). *)
  Definition rvsub (a b : list F) : res (list F) := rassert (length a =? length b)%nat (Ok (vsub a b)).
  (** [&Vector + Vector] asserts equal sizes ([rulinalg]). *)
  Definition rvadd (a b : list F) : res (list F) := rassert (length a =? length b)%nat (Ok (vadd a b)).

  (** grad_desc.rs lines 22-27. *)
  Record GradientDesc := { gd_alpha : F; gd_iters : nat }.

  (** grad_desc.rs lines 57-65. *)
  Definition gd_new (alpha : F) (iters : nat) : res GradientDesc :=
    rassert (nzero <? alpha) (Ok {| gd_alpha := alpha; gd_iters := iters |}).

  (** grad_desc.rs lines 81-94: the loop, [n] rounds left. *)
  Fixpoint gd_loop (alpha : F) (compute_grad : list F -> res (F * list F)) (n : nat)
      (optimizing_val : list F) (start_iter_cost : F) : res (list F) :=
    match n with
    | O => Ok optimizing_val
    | S n' =>
        let? (cost, grad) := compute_grad optimizing_val in
        if nabs (start_iter_cost - cost) <? learning_eps then Ok optimizing_val
        else
          let? w := rvsub optimizing_val (vscale alpha grad) in
          gd_loop alpha compute_grad n' w cost
    end.

  (** grad_desc.rs lines 69-96.  [inputs] and [targets] are fixed during the call and are part of
      [compute_grad] here. *)
  Definition gd_optimize (self : GradientDesc) (compute_grad : list F -> res (F * list F))
      (start : list F) : res (list F) :=
    gd_loop (gd_alpha self) compute_grad (gd_iters self) start nzero.

  (** A panic or error (in grad_desc.rs lines 181-190, 280-290, 393-405) inside a randomised computation. *)
  Definition rnd_res {A} (r : res A) : Rnd A := match r with Ok a => RRet a | _ => RPanic end.

  (** [Matrix::select_rows(&[i])] (grad_desc.rs lines 184, 283, 396): the one-row matrix, panicking when out of range. *)
  Definition one_row (m : matrix F) (i : nat) : res (matrix F) :=
    let? r := ridx (mrows m) i in Ok (Mat [r] (mcols m)).

  (** The three stochastic optimisers share their loops word for word (grad_desc.rs lines 172-207,
      271-306, 385-419); they differ in the vector kept beside the parameters and in the update.
      State: parameters and that vector. *)
  Definition ostate := (list F * list F)%type.

  Section Stochastic.
    Variable compute_grad : list F -> matrix F -> matrix F -> res (F * list F).
    Variable step : ostate -> list F -> res ostate.
    Variables inputs targets : matrix F.

    (** grad_desc.rs lines 181-196 (282-296, 394-410): the loop over the permutation. *)
    Fixpoint stoch_pass (permutation : list nat) (st : ostate) (end_cost : F) : res (ostate * F) :=
      match permutation with
      | [] => Ok (st, end_cost)
      | i :: permutation' =>
          let? xi := one_row inputs i in
          let? ti := one_row targets i in
          let? (cost, grad) := compute_grad (fst st) xi ti in
          let? st' := step st grad in
          stoch_pass permutation' st' (end_cost + cost)
      end.

    (** grad_desc.rs lines 176-207 (275-306, 389-419), [n] epochs left. *)
    Fixpoint stoch_loop (n : nat) (permutation : list nat) (st : ostate) (start_iter_cost : F) : Rnd (list F) :=
      match n with
      | O => RRet (fst st)
      | S n' =>
          let! permutation' := in_place_fisher_yates permutation in
          let! r := rnd_res (stoch_pass permutation' st nzero) in
          let end_cost := snd r / nofnat (nrows inputs) in
          if nabs (start_iter_cost - end_cost) <? learning_eps then RRet (fst (fst r))
          else stoch_loop n' permutation' (fst r) end_cost
      end.

    (** grad_desc.rs lines 166-174, 208 (265-273, 307; 379-387, 420). *)
    Definition stoch_optimize (iters : nat) (start : list F) : Rnd (list F) :=
      stoch_loop iters (seq 0 (nrows inputs)) (start, repeat nzero (length start)) nzero.
  End Stochastic.

  (** grad_desc.rs lines 103-110. *)
  Record StochasticGD := { sgd_alpha : F; sgd_mu : F; sgd_iters : nat }.

  (** grad_desc.rs lines 144-153. *)
  Definition sgd_new (alpha mu : F) (iters : nat) : res StochasticGD :=
    rassert (nzero <? alpha) (rassert (nzero <? mu)
      (Ok {| sgd_alpha := alpha; sgd_mu := mu; sgd_iters := iters |})).

  (** grad_desc.rs lines 187-193; the second component is [delta_w]. *)
  Definition sgd_step (self : StochasticGD) (st : ostate) (grad : list F) : res ostate :=
    let (w, delta_w) := st in
    let prev_w := delta_w in
    let? delta_w := rvadd (vscale (sgd_mu self) grad) (vscale (sgd_alpha self) delta_w) in
    let? d := rvadd (vscale (- sgd_alpha self) prev_w) (vscale (nonev + sgd_alpha self) delta_w) in
    let? w' := rvsub w d in
    Ok (w', delta_w).

  (** grad_desc.rs lines 159-209. *)
  Definition sgd_optimize (self : StochasticGD) cg (start : list F) (inputs targets : matrix F) : Rnd (list F) :=
    stoch_optimize cg (sgd_step self) inputs targets (sgd_iters self) start.

  (** grad_desc.rs lines 216-220. *)
  Record AdaGrad := { ada_alpha : F; ada_tau : F; ada_iters : nat }.

  (** grad_desc.rs lines 234-244. *)
  Definition ada_new (alpha tau : F) (iters : nat) : res AdaGrad :=
    rassert (nzero <? alpha) (rassert (tau >=? nzero)
      (Ok {| ada_alpha := alpha; ada_tau := tau; ada_iters := iters |})).

  (** grad_desc.rs lines 286-293; the second component is [ada_s].  [in_place_vec_bin_op] asserts
      equal lengths in debug builds; without the assertion a mismatch makes the subtraction at
      line 293 panic, so the outcome is the same. *)
  Definition ada_step (self : AdaGrad) (st : ostate) (grad : list F) : res ostate :=
    let (w, ada_s) := st in
    rassert (length ada_s =? length grad)%nat
      (let ada_s := map2 (fun x y => x + y * y) ada_s grad in
       let change := map2 (fun x y => ada_alpha self * (x / (ada_tau self + nsqrt y))) grad ada_s in
       let? w' := rvsub w change in
       Ok (w', ada_s)).

  (** grad_desc.rs lines 258-308. *)
  Definition ada_optimize (self : AdaGrad) cg (start : list F) (inputs targets : matrix F) : Rnd (list F) :=
    stoch_optimize cg (ada_step self) inputs targets (ada_iters self) start.

  (** grad_desc.rs lines 315-324. *)
  Record RMSProp := { rms_rate : F; rms_decay : F; rms_epsilon : F; rms_iters : nat }.

  (** grad_desc.rs lines 357-368. *)
  Definition rms_new (learning_rate decay_rate epsilon : F) (iters : nat) : res RMSProp :=
    rassert (nzero <? learning_rate) (rassert ((nzero <? decay_rate) && (decay_rate <? nonev)) (rassert (nzero <? epsilon)
      (Ok {| rms_rate := learning_rate; rms_decay := decay_rate; rms_epsilon := epsilon; rms_iters := iters |}))).

  (** grad_desc.rs lines 399-407; the second component is [rmsprop_cache]. *)
  Definition rms_step (self : RMSProp) (st : ostate) (grad : list F) : res ostate :=
    let (params, cache) := st in
    let grad_squared := map (fun x => x * x) grad in
    let? cache := rvadd (vscale (rms_decay self) cache) (vscale (nonev - rms_decay self) grad_squared) in
    let grad := map2 (fun x y => x * rms_rate self / nsqrt (y + rms_epsilon self)) grad cache in
    let? params' := rvsub params grad in
    Ok (params', cache).

  (** grad_desc.rs lines 373-421. *)
  Definition rms_optimize (self : RMSProp) cg (start : list F) (inputs targets : matrix F) : Rnd (list F) :=
    stoch_optimize cg (rms_step self) inputs targets (rms_iters self) start.
End Optim.
Arguments GradientDesc : clear implicits. Arguments StochasticGD : clear implicits.
Arguments AdaGrad : clear implicits. Arguments RMSProp : clear implicits. Arguments ostate : clear implicits.
