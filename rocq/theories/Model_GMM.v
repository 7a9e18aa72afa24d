(** * Model of [src/learning/gmm.rs] *)
From Coq Require Import List Arith Bool.
From Verif Require Import Base Num NumFn Linalg Model_Rand Model_Optim Model_GP Model_NNet.
Import ListNotations.
Local Open Scope num_scope.

Section GMM.
  Context {F : Type} {N : Num F} {NF : NumFn F}.

  (** gmm.rs lines 47-54. *)
  Inductive CovOption := CovFull | CovRegularized (eps : F) | CovDiagonal.

  (** gmm.rs lines 59-68. *)
  Record GMM := {
    gmm_comp_count : nat;
    gmm_mix_weights : list F;
    gmm_means : option (matrix F);
    gmm_covars : option (list (matrix F));
    gmm_log_lik : F;
    gmm_max_iters : nat;
    gmm_cov_option : CovOption }.

  (** gmm.rs lines 129-139. *)
  Definition gmm_new (k : nat) : GMM :=
    {| gmm_comp_count := k; gmm_mix_weights := map (fun x => x / nofnat k) (repeat nonev k);
       gmm_means := None; gmm_covars := None; gmm_log_lik := nzero; gmm_max_iters := 100; gmm_cov_option := CovFull |}.
  (** gmm.rs lines 163-183. *)
  Definition gmm_with_weights (k : nat) (mixture_weights : list F) : res GMM :=
    if negb (length mixture_weights =? k)%nat then Err InvalidParameters
    else if existsb (fun x => x <? nzero) mixture_weights then Err InvalidParameters
    else
      let sum := vsum mixture_weights in
      Ok {| gmm_comp_count := k; gmm_mix_weights := map (fun x => x / sum) mixture_weights;
            gmm_means := None; gmm_covars := None; gmm_log_lik := nzero; gmm_max_iters := 100; gmm_cov_option := CovFull |}.
  (** gmm.rs lines 222-224; [cov_option] (line 67) is a public field. *)
  Definition gmm_set_max_iters (self : GMM) (iters : nat) : GMM :=
    {| gmm_comp_count := gmm_comp_count self; gmm_mix_weights := gmm_mix_weights self; gmm_means := gmm_means self;
       gmm_covars := gmm_covars self; gmm_log_lik := gmm_log_lik self; gmm_max_iters := iters; gmm_cov_option := gmm_cov_option self |}.
  (** gmm.rs line 67: the public field [cov_option]. *)
  Definition gmm_set_cov (self : GMM) (c : CovOption) : GMM :=
    {| gmm_comp_count := gmm_comp_count self; gmm_mix_weights := gmm_mix_weights self; gmm_means := gmm_means self;
       gmm_covars := gmm_covars self; gmm_log_lik := gmm_log_lik self; gmm_max_iters := gmm_max_iters self; gmm_cov_option := c |}.

  (** [Matrix::from_diag] ([rulinalg]). *)
  Definition from_diag (d : list F) : matrix F :=
    let n := length d in
    Mat (map (fun i => map (fun j => if (i =? j)%nat then nth i d nzero else nzero) (seq 0 n)) (seq 0 n)) n.

  (** gmm.rs lines 226-250.  [variance] fails only on fewer than two rows, which [train] has excluded. *)
  Definition initialize_covariances (self : GMM) (inputs : matrix F) (reg_value : F) : matrix F :=
    match gmm_cov_option self with
    | CovDiagonal => mmap (fun x => x * nsqrt reg_value) (from_diag (col_var inputs))
    | opt =>
        let means := col_mean inputs in
        let d := mcols inputs in
        let cov_mat :=
          Mat (map (fun j => map (fun k =>
                 vsum (map (fun r => (nth j r nzero - nth j means nzero) * (nth k r nzero - nth k means nzero)) (mrows inputs)))
               (seq 0 d)) (seq 0 d)) d in
        let cov_mat := mmap (fun x => x * reg_value) cov_mat in
        match opt with
        | CovRegularized eps => mzip nadd cov_mat (scaled_identity d eps)
        | _ => cov_mat
        end
    end.

  (** [PartialPivLu::decompose], [det] and [inverse] are a parameter: [Panic] when the decomposition
      fails ([expect], gmm.rs lines 263), [Err] when the inverse fails (line 266). *)
  Variable lup : matrix F -> res (F * matrix F).

  (** gmm.rs lines 286-290: the density of component [j], up to a constant. *)
  Definition gmm_pdf (means : matrix F) (dets_invs : list (F * matrix F)) (x_i : list F) (j : nat) : res F :=
    let? mu_j := ridx (mrows means) j in
    let? diff := rvsub x_i mu_j in
    let? (sqrt_det, inv) := (let? p := ridx dets_invs j in Ok (nsqrt (fst p), snd p)) in
    let diffm := Mat [diff] (length diff) in
    let? a := rmat_mul diffm inv in
    let? b := rmat_mul a (transpose diffm) in
    let? r := ridx (mrows b) 0 in
    let? q := ridx r 0 in
    Ok (nexp (q * nopp (nonev / nofnat 2)) / sqrt_det).

  (** gmm.rs lines 281-300: one row; returns the row of weights and the weighted sum of the densities. *)
  Definition gmm_row (self : GMM) (means : matrix F) (dets_invs : list (F * matrix F)) (x_i : list F) : res (list F * F) :=
    let? pdfs := rmap (gmm_pdf means dets_invs x_i) (seq 0 (gmm_comp_count self)) in
    let weighted_pdf_sum := dot pdfs (gmm_mix_weights self) in
    let? ws := rmap (fun idx => let? w := ridx (gmm_mix_weights self) idx in
                                let? pdf := ridx pdfs idx in Ok (w * pdf / weighted_pdf_sum)) (seq 0 (length pdfs)) in
    Ok (ws, weighted_pdf_sum).

  (** gmm.rs lines 252-304. *)
  Definition membership_weights (self : GMM) (inputs : matrix F) : res (matrix F * F) :=
    let? dets_invs := match gmm_covars self with None => Ok [] | Some covars => rmap lup covars end in
    match gmm_means self with
    | None => rassert (nrows inputs * gmm_comp_count self =? 0)%nat (Ok (Mat (repeat [] (nrows inputs)) (gmm_comp_count self), nzero))
    | Some means =>
        let? rows := rmap (gmm_row self means dets_invs) (mrows inputs) in
        Ok (Mat (map fst rows) (gmm_comp_count self), vsum (map (fun p => nln (snd p)) rows))
    end.

  (** gmm.rs lines 341-346. *)
  Definition compute_cov (self : GMM) (diff : list F) (weight : F) : matrix F :=
    match gmm_cov_option self with
    | CovDiagonal => mmap (fun x => x * weight) (from_diag (velemul diff diff))
    | _ => let diffm := Mat [diff] (length diff) in mmap (fun x => x * weight) (mat_mul (transpose diffm) diffm)
    end.

  (** [Matrix::zeros] of [rulinalg] (gmm.rs line 321). *)
  Definition zeros (r c : nat) : matrix F := Mat (repeat (repeat nzero c) r) c.

  (** gmm.rs lines 306-339.  [membership_weights] has as many rows as [inputs] and [comp_count] columns, so
      that all slices are in range. *)
  Definition update_params (self : GMM) (inputs membership : matrix F) : GMM :=
    let n := nrows membership in
    let d := mcols inputs in
    let sum_weights := map (fun k => vsum (col membership k)) (seq 0 (mcols membership)) in
    let mix_weights := map (fun x => x / nofnat n) sum_weights in
    let new_means := Mat (map2 (fun mean w => map (fun x => x / w) mean) (mrows (mat_mul (transpose membership) inputs)) sum_weights) d in
    let new_covs := map (fun k =>
      let mean_k := nth k (mrows new_means) [] in
      let cov_mat := fold_left (fun acc i =>
          mzip nadd acc (compute_cov self (vsub (nth i (mrows inputs) []) mean_k) (nth k (nth i (mrows membership) []) nzero)))
        (seq 0 n) (zeros d d) in
      let cov_mat := match gmm_cov_option self with
                     | CovRegularized eps => mzip nadd cov_mat (scaled_identity d eps)
                     | _ => cov_mat
                     end in
      mmap (fun x => x / nth k sum_weights nzero) cov_mat) (seq 0 (gmm_comp_count self)) in
    {| gmm_comp_count := gmm_comp_count self; gmm_mix_weights := mix_weights; gmm_means := Some new_means;
       gmm_covars := Some new_covs; gmm_log_lik := gmm_log_lik self; gmm_max_iters := gmm_max_iters self;
       gmm_cov_option := gmm_cov_option self |}.

  (** gmm.rs lines 92-104: assignment to [self.log_lik]. *)
  Definition set_log_lik (self : GMM) (l : F) : GMM :=
    {| gmm_comp_count := gmm_comp_count self; gmm_mix_weights := gmm_mix_weights self; gmm_means := gmm_means self;
       gmm_covars := gmm_covars self; gmm_log_lik := l; gmm_max_iters := gmm_max_iters self; gmm_cov_option := gmm_cov_option self |}.

  (** gmm.rs lines 92-104, [n] rounds left. *)
  Fixpoint em_loop (n : nat) (self : GMM) (inputs : matrix F) : GMM * res unit :=
    match n with
    | O => (self, Ok tt)
    | S n' =>
        match membership_weights self inputs with
        | Ok (weights, log_lik_1) =>
            if nabs (log_lik_1 - gmm_log_lik self) <? (nonev / pow10 15) then (self, Ok tt)
            else em_loop n' (update_params (set_log_lik self log_lik_1) inputs weights) inputs
        | Err k => (self, Err k)
        | Panic => (self, Panic)
        end
    end.

  (** gmm.rs lines 72-91: the assignments before the loop. *)
  Definition set_start (self : GMM) (means : matrix F) (covars : list (matrix F)) : GMM :=
    {| gmm_comp_count := gmm_comp_count self; gmm_mix_weights := gmm_mix_weights self; gmm_means := Some means;
       gmm_covars := Some covars; gmm_log_lik := gmm_log_lik self; gmm_max_iters := gmm_max_iters self;
       gmm_cov_option := gmm_cov_option self |}.

  (** gmm.rs lines 72-107. *)
  Definition gmm_train (self : GMM) (inputs : matrix F) : Rnd (GMM * res unit) :=
    if negb (1 <? nrows inputs)%nat then RRet (self, Err InvalidData)
    else
      let reg_value := nonev / nofnat (nrows inputs - 1) in
      let cov_mat := initialize_covariances self inputs reg_value in
      let! random_rows := reservoir_sample (seq 0 (nrows inputs)) (gmm_comp_count self) in
      let! rows := rnd_opt (rows_opt (mrows inputs) random_rows) in
      RRet (em_loop (gmm_max_iters self) (set_start self (Mat rows (mcols inputs)) (repeat cov_mat (gmm_comp_count self))) inputs).

  (** gmm.rs lines 110-117. *)
  Definition gmm_predict (self : GMM) (inputs : matrix F) : res (matrix F) :=
    match gmm_means self, gmm_covars self with
    | Some _, Some _ => let? (w, _) := membership_weights self inputs in Ok w
    | _, _ => Err UntrainedModel
    end.
End GMM.
Arguments GMM : clear implicits. Arguments CovOption : clear implicits.
