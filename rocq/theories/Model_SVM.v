(** * Model of [src/learning/svm.rs] *)
From Coq Require Import List Arith Bool.
From Verif Require Import Base Num NumFn NumSign Linalg Model_Optim Model_Regression Model_Kernel Model_GP.
Import ListNotations.
Local Open Scope num_scope.

Section SVM.
  Context {F : Type} {N : Num F}.

  (** svm.rs lines 46-56, without the kernel, which the functions below take as an argument. *)
  Record SVM := { svm_alpha : option (list F); svm_train_inputs : option (matrix F); svm_train_targets : option (list F);
                  svm_lambda : F; svm_optim_iters : nat }.

  (** svm.rs lines 91-100 (the defaults of lines 65-76 are [svm_new 0.3]). *)
  Definition svm_new (lambda : F) : SVM :=
    {| svm_alpha := None; svm_train_inputs := None; svm_train_targets := None; svm_lambda := lambda; svm_optim_iters := 100 |}.

  (** svm.rs lines 127-142. *)
  Definition svm_predict (ker : Kernel F) (self : SVM) (inputs : matrix F) : res (list F) :=
    let full_inputs := with_ones inputs in
    match svm_alpha self, svm_train_inputs self, svm_train_targets self with
    | Some alpha, Some train_inputs, Some train_targets =>
        let? km := ker_mat ker full_inputs train_inputs in
        rassert (length alpha =? length train_targets)%nat
          (let weight_vec := map (fun w => w / svm_lambda self) (velemul alpha train_targets) in
           let? plane_dist := rmat_vec km weight_vec in
           Ok (map nsignum plane_dist))
    | _, _, _ => Err UntrainedModel
    end.

  (** svm.rs lines 157-158: the sum of the kernel values of a row with every row. *)
  Fixpoint ker_sum (ker : Kernel F) (row_i : list F) (rows : list (list F)) (sum : F) : res F :=
    match rows with
    | [] => Ok sum
    | row :: rows' => let? v := ker row_i row in ker_sum ker row_i rows' (sum + v)
    end.

  (** svm.rs lines 154-164: the body of the loop. *)
  Definition svm_body (ker : Kernel F) (self : SVM) (full_inputs : matrix F) (targets : list F) (t : nat) (alpha : list F) : Rnd (list F) :=
    let! i := gen_range (nrows full_inputs) in
    rnd_res
      (let? row_i := ridx (mrows full_inputs) i in
       let? s := ker_sum ker row_i (mrows full_inputs) nzero in
       let? y := ridx targets i in
       let sum := s * y / (svm_lambda self * nofnat t) in
       if sum <? nonev then
         let? a := ridx alpha i in
         match upd alpha i (a + nonev) with Some alpha' => Ok alpha' | None => Panic end
       else Ok alpha).

  (** svm.rs lines 144-171.  The function returns [Ok] whenever it returns; the result is the new
      state.  A panic happens before any field is assigned. *)
  Definition svm_train (ker : Kernel F) (self : SVM) (inputs : matrix F) (targets : list F) : Rnd SVM :=
    let full_inputs := with_ones inputs in
    let! alpha := rnd_for 0 (svm_optim_iters self) (svm_body ker self full_inputs targets) (repeat nzero (nrows inputs)) in
    RRet {| svm_alpha := Some (map (fun a => a / nofnat (svm_optim_iters self)) alpha);
            svm_train_inputs := Some full_inputs; svm_train_targets := Some targets;
            svm_lambda := svm_lambda self; svm_optim_iters := svm_optim_iters self |}.
End SVM.
Arguments SVM : clear implicits.
