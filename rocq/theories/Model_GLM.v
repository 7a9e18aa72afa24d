(** * Model of [src/learning/glm.rs] *)
From Coq Require Import List Arith Bool.
From Verif Require Import Base Num NumFn Linalg Model_Optim Model_Regression.
Import ListNotations.
Local Open Scope num_scope.

Section GLM.
  Context {F : Type} {N : Num F} {NF : NumFn F}.

  (** A decimal literal [1e-n] (glm.rs lines 127, 308, 337, 353): the quotient of 1 by a power of ten. *)
  Definition tiny (n : nat) : F := nonev / pow10 n.

  (** The trait [LinkFunc], glm.rs lines 215-225. *)
  Record LinkFunc := { lk_func : F -> F; lk_grad : F -> F; lk_inv : F -> F }.
  (** glm.rs lines 236-248. *)
  Definition Logit : LinkFunc :=
    {| lk_func := fun x => nln (x / (nonev - x));
       lk_grad := fun x => nonev / (x * (nonev - x));
       lk_inv := fun x => nonev / (nonev + nexp (- x)) |}.
  (** glm.rs lines 259-271. *)
  Definition Log : LinkFunc :=
    {| lk_func := fun x => nln x; lk_grad := fun x => nonev / x; lk_inv := fun x => nexp x |}.
  (** glm.rs lines 282-294. *)
  Definition Identity : LinkFunc :=
    {| lk_func := fun x => x; lk_grad := fun _ => nonev; lk_inv := fun x => x |}.

  (** The trait [Criterion], glm.rs lines 148-210: the methods [train] and [predict] use.  The indexing
      [self.weights[idx]] of [Binomial] may panic, so the weights are a [res]. *)
  Record Criterion := {
    cr_link : LinkFunc;
    cr_variance : F -> F;
    cr_initialize_mu : list F -> list F;
    cr_working_weight : list F -> res (list F);
    cr_y_bar : list F -> list F -> list F }.

  (** Default methods: glm.rs lines 158-160; 169-178; 186-194.  [y] and [mu] have equal length: [train]
      checks it. *)
  Definition default_mu (y : list F) : list F := y.
  (** glm.rs lines 169-181: the default method, one entry. *)
  Definition default_weight (link : LinkFunc) (variance : F -> F) (mu : list F) : list F :=
    map (fun m => let grad := lk_grad link m in nonev / (variance m * grad * grad)) mu.
  (** glm.rs lines 186-195: the default method, one entry. *)
  Definition default_y_bar (link : LinkFunc) (y mu : list F) : list F :=
    map2 (fun yi m => lk_grad link m * (yi - m)) y mu.

  (** glm.rs lines 305-313 and 373-382. *)
  Definition bern_variance (mu : F) : F :=
    let var := mu * (nonev - mu) in if nabs var <? tiny 10 then tiny 10 else var.
  (** glm.rs lines 315-329 and 384-398. *)
  Definition bern_mu (y : list F) : list F :=
    map (fun yv => if yv <? tiny 10 then tiny 10 else if nonev - tiny 10 <? yv then nonev - tiny 10 else yv) y.
  (** glm.rs lines 347-361 and 416-430. *)
  Definition bern_y_bar (y mu : list F) : list F :=
    map2 (fun yi m => let d := yi - m in if nabs d <? tiny 15 then nzero else lk_grad Logit m * d) y mu.
  (** glm.rs lines 331-345: the clipping of a weight. *)
  Definition clip_weight (var : F) : F := if nabs var <? tiny 5 then tiny 5 else var.

  (** glm.rs lines 302-362. *)
  Definition Bernoulli : Criterion :=
    {| cr_link := Logit; cr_variance := bern_variance; cr_initialize_mu := bern_mu;
       cr_working_weight := fun mu => Ok (map (fun m => clip_weight (bern_variance m)) mu);
       cr_y_bar := bern_y_bar |}.
  (** glm.rs lines 366-431. *)
  Definition Binomial (weights : list F) : Criterion :=
    {| cr_link := Logit; cr_variance := bern_variance; cr_initialize_mu := bern_mu;
       cr_working_weight := fun mu =>
         rmap (fun im => let? w := ridx weights (fst im) in Ok (clip_weight (bern_variance (snd im) / w)))
              (combine (seq 0 (length mu)) mu);
       cr_y_bar := bern_y_bar |}.
  (** glm.rs lines 439-445. *)
  Definition Normal : Criterion :=
    {| cr_link := Identity; cr_variance := fun _ => nonev; cr_initialize_mu := default_mu;
       cr_working_weight := fun mu => Ok (default_weight Identity (fun _ => nonev) mu);
       cr_y_bar := default_y_bar Identity |}.
  (** glm.rs lines 451-475. *)
  Definition Poisson : Criterion :=
    {| cr_link := Log; cr_variance := fun mu => mu;
       cr_initialize_mu := map (fun yv => if yv <? tiny 10 then tiny 10 else yv);
       cr_working_weight := fun mu => Ok mu;
       cr_y_bar := default_y_bar Log |}.

  (** glm.rs lines 49-53 and 67-72; the criterion is passed to the methods. *)
  Record GenLinearModel := { glm_parameters : option (list F) }.
  (** glm.rs lines 67-72. *)
  Definition glm_new : GenLinearModel := {| glm_parameters := None |}.

  (** [Matrix::from_diag] of [rulinalg] (glm.rs line 115). *)
  Definition from_diag (d : list F) : matrix F :=
    Mat (map (fun i => map (fun j => if (i =? j)%nat then nth i d nzero else nzero) (seq 0 (length d))) (seq 0 (length d))) (length d).

  (** One pass of the loop, glm.rs lines 112-134: the new parameters, and the [mu] and [z] for the next
      pass.  [inverse] is [Matrix::inverse] of [rulinalg]; [None] is its error, which is turned
      into a panic by [expect].  The products have matching shapes by construction. *)
  Definition glm_pass (inverse : matrix F -> option (matrix F)) (cr : Criterion) (full_inputs : matrix F)
      (targets mu z : list F) : res (list F * list F * list F) :=
    let x_t := transpose full_inputs in
    let? w_diag := cr_working_weight cr mu in
    let y_bar := cr_y_bar cr targets mu in
    let x_t_w := mat_mul x_t (from_diag w_diag) in
    match inverse (mat_mul x_t_w full_inputs) with
    | None => Panic
    | Some inv =>
        let new_beta := mat_vec (mat_mul inv x_t_w) z in
        let fitted := mat_vec full_inputs new_beta in
        Ok (new_beta, map (lk_inv (cr_link cr)) fitted, vadd y_bar fitted)
    end.

  (** glm.rs lines 111-135: [fuel] passes, stopping when the parameters move by less than 1e-10. *)
  Fixpoint glm_loop (fuel : nat) (inverse : matrix F -> option (matrix F)) (cr : Criterion) (full_inputs : matrix F)
      (targets mu z beta : list F) : res (list F) :=
    match fuel with
    | O => Ok beta
    | S fuel' =>
        let? (new_beta, mu', z') := glm_pass inverse cr full_inputs targets mu z in
        if vsum (map nabs (vsub beta new_beta)) <? tiny 10 then Ok new_beta
        else glm_loop fuel' inverse cr full_inputs targets mu' z' new_beta
    end.

  (** glm.rs lines 93-139. *)
  Definition glm_train (inverse : matrix F -> option (matrix F)) (cr : Criterion) (self : GenLinearModel)
      (inputs : matrix F) (targets : list F) : GenLinearModel * res unit :=
    if negb (nrows inputs =? length targets)%nat then (self, Err InvalidData) else
    let mu := cr_initialize_mu cr targets in
    match glm_loop 8 inverse cr (with_ones inputs) targets mu mu (repeat nzero (S (mcols inputs))) with
    | Ok beta => ({| glm_parameters := Some beta |}, Ok tt)
    | Err k => (self, Err k)
    | Panic => (self, Panic)
    end.

  (** glm.rs lines 82-90. *)
  Definition glm_predict (cr : Criterion) (self : GenLinearModel) (inputs : matrix F) : res (list F) :=
    match glm_parameters self with
    | Some v => let? z := rmat_vec (with_ones inputs) v in Ok (map (lk_inv (cr_link cr)) z)
    | None => Err UntrainedModel
    end.
End GLM.
Arguments LinkFunc : clear implicits. Arguments Criterion : clear implicits. Arguments GenLinearModel : clear implicits.
