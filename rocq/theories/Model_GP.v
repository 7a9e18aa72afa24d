(** * Model of [src/learning/gp.rs] *)
From Coq Require Import List Arith Bool.
From Verif Require Import Base Num NumFn Linalg Model_Optim Model_Regression Model_Kernel.
Import ListNotations.
Local Open Scope num_scope.

Section KerMat.
  Context {F : Type} {N : Num F}.
  (** gp.rs lines 124-140 and svm.rs lines 105-121. *)
  Definition ker_mat (ker : Kernel F) (m1 m2 : matrix F) : res (matrix F) :=
    if negb (mcols m1 =? mcols m2)%nat then Err InvalidState
    else let? rows := rmap (fun row1 => rmap (fun row2 => ker row1 row2) (mrows m2)) (mrows m1) in
         Ok (Mat rows (nrows m2)).
End KerMat.

Section GP.
  Context {F : Type} {N : Num F}.

  (** The trait [MeanFunc] and [ConstMean], gp.rs lines 36-58. *)
  Definition MeanFunc := matrix F -> list F.
  (** gp.rs lines 53-58. *)
  Definition const_mean (a : F) : MeanFunc := fun x => map (fun z => z + a) (repeat nzero (nrows x)).

  (** gp.rs lines 65-74.  The kernel, the mean function and the linear solvers are parameters. *)
  Record GaussianProcess := {
    gp_noise : F;
    gp_alpha : option (list F);
    gp_train_mat : option (matrix F);
    gp_train_data : option (matrix F) }.
  (** gp.rs lines 112-121. *)
  Definition gp_new (noise : F) : GaussianProcess :=
    {| gp_noise := noise; gp_alpha := None; gp_train_mat := None; gp_train_data := None |}.

  (** [Matrix::identity(n) * noise], gp.rs line 159. *)
  Definition scaled_identity (n : nat) (c : F) : matrix F :=
    Mat (map (fun i => map (fun j => (if (i =? j)%nat then nonev else nzero) * c) (seq 0 n)) (seq 0 n)) n.
  (** [unwrap] of a [Result] (gp.rs lines 161-169). *)
  Definition unwrap {A} (r : res A) : res A := match r with Ok a => Ok a | _ => Panic end.

  (** gp.rs lines 158-176.  [cholesky] is [Cholesky::decompose(..)] followed by [unpack] ([None] is its
      error); [solve_l], [solve_u] are [solve_l_triangular], [solve_u_triangular]. *)
  Definition gp_train (ker : Kernel F) (mean : MeanFunc) (cholesky : matrix F -> option (matrix F))
      (solve_l solve_u : matrix F -> list F -> res (list F)) (self : GaussianProcess) (inputs : matrix F) (targets : list F)
      : GaussianProcess * res unit :=
    let noise_mat := scaled_identity (nrows inputs) (gp_noise self) in
    match
      (let? km := unwrap (ker_mat ker inputs inputs) in
       match cholesky (mzip nadd km noise_mat) with
       | None => Err InvalidState
       | Some train_mat =>
           let? d := rvsub targets (mean inputs) in
           let? x := unwrap (solve_l train_mat d) in
           let? alpha := unwrap (solve_u (transpose train_mat) x) in
           Ok (train_mat, alpha)
       end)
    with
    | Ok (train_mat, alpha) =>
        ({| gp_noise := gp_noise self; gp_alpha := Some alpha; gp_train_mat := Some train_mat; gp_train_data := Some inputs |}, Ok tt)
    | Err k => (self, Err k)
    | Panic => (self, Panic)
    end.

  (** gp.rs lines 145-155. *)
  Definition gp_predict (ker : Kernel F) (mean : MeanFunc) (self : GaussianProcess) (inputs : matrix F) : res (list F) :=
    match gp_alpha self, gp_train_data self with
    | Some alpha, Some t_data =>
        let? km := ker_mat ker inputs t_data in
        let? post_mean := rmat_vec km alpha in
        rvadd (mean inputs) post_mean
    | _, _ => Err UntrainedModel
    end.

  (** gp.rs lines 185-210. *)
  Definition gp_get_posterior (ker : Kernel F) (mean : MeanFunc) (solve_l : matrix F -> list F -> res (list F))
      (self : GaussianProcess) (inputs : matrix F) : res (list F * matrix F) :=
    match gp_train_mat self, gp_alpha self, gp_train_data self with
    | Some t_mat, Some alpha, Some t_data =>
        let? test_mat := ker_mat ker inputs t_data in
        let? pm := rmat_vec test_mat alpha in
        let? post_mean := rvadd (mean inputs) pm in
        let? vrows := rmap (fun row => unwrap (solve_l t_mat row)) (mrows test_mat) in
        let v_mat := Mat vrows (mcols test_mat) in
        let? kk := ker_mat ker inputs inputs in
        Ok (post_mean, mzip nsub kk (mat_mul v_mat (transpose v_mat)))
    | _, _, _ => Err UntrainedModel
    end.
End GP.
Arguments MeanFunc : clear implicits. Arguments GaussianProcess : clear implicits.
