(** * C183: the random starting weights of a network ([src/learning/nnet/net_layer.rs]) *)
From Coq Require Import List Arith Bool Reals.
From Verif Require Import Base BaseLemmas Num NumFn Linalg Spec_Calc MatR Model_Toolkit Model_NNet Spec_NNet Spec_Glorot Proof_Glorot.
Import ListNotations.
Local Open Scope R_scope.

(** C183: the starting weights of a linear layer have mean 0 and variance 2/(input_size + output_size), as documented. *)
Theorem C183_weights : forall E (l : Linear) m, standard_draws m E -> (ln_input_size l * ln_output_size l <= m)%nat ->
  (forall z, length (linear_default_params (F := R) l z) = (ln_input_size l * ln_output_size l)%nat) /\
  forall k, (k < ln_input_size l * ln_output_size l)%nat -> E (fun z => nth k (linear_default_params l z) 0) = 0 /\
    forall k', (k' < ln_input_size l * ln_output_size l)%nat -> E (fun z => nth k (linear_default_params l z) 0 * nth k' (linear_default_params l z) 0) =
      if (k =? k')%nat then 2 / INR (ln_input_size l + ln_output_size l) else 0.
Proof. exact weights_moments. Qed.
Print Assumptions C183_weights.
(** Draws with these moments exist for every number of weights: fair signs. *)
Theorem C183_draws_exist : forall m, standard_draws m (signs m).
Proof. exact signs_standard. Qed.
Print Assumptions C183_draws_exist.
(** C183: before training, the answers of a fresh linear layer have mean 0, different outputs are uncorrelated, and the answers of
    one output at two rows are as correlated as the rows are aligned. *)
Theorem C183_outputs : forall E (c : Criterion R) i o b X m, standard_draws m E -> ((bias_rows b + i) * o <= m)%nat -> mwf X -> mcols X = i ->
  exists Y : (nat -> R) -> matrix R,
    (forall rng, net_predict (net_add rng (net_new c) (to_layer (KLinear i o b))) X = Ok (Y (rng 0%nat))) /\
    forall r j, (r < nrows X)%nat -> (j < o)%nat -> E (fun z => entry (Y z) r j) = 0 /\
      forall r' j', (r' < nrows X)%nat -> (j' < o)%nat -> E (fun z => entry (Y z) r j * entry (Y z) r' j') =
        if (j =? j')%nat then 2 / INR (bias_rows b + i + o) * ((if b then 1 else 0) + sumR i (fun k => entry X r k * entry X r' k)) else 0.
Proof. exact forward_moments. Qed.
Print Assumptions C183_outputs.
Example C183_ex : standard_draws 6 (signs 6) /\ mwf (Mat [[3; 4]] 2) /\ 2 / INR (bias_rows true + 2 + 1) * (1 + sumR 2 (fun k => entry (Mat [[3; 4]] 2) 0 k * entry (Mat [[3; 4]] 2) 0 k)) = 13.
Proof. exact glorot_ex. Qed.
(** C183: the same for the gradients that the layer passes back. *)
Theorem C183_gradients : forall E i o b (G X Y : matrix R) m, standard_draws m E -> ((bias_rows b + i) * o <= m)%nat -> (0 < o)%nat -> mwf G -> mcols G = o ->
  exists B : (nat -> R) -> matrix R,
    (forall z, nl_back_input (to_layer (KLinear i o b)) G X Y (Mat (chunk (bias_rows b + i) o (linear_default_params (lin_l i o b) z)) o) = Ok (B z)) /\
    forall r k, (r < nrows G)%nat -> (k < i)%nat -> E (fun z => entry (B z) r k) = 0 /\
      forall r' k', (r' < nrows G)%nat -> (k' < i)%nat -> E (fun z => entry (B z) r k * entry (B z) r' k') =
        if (k =? k')%nat then 2 / INR (bias_rows b + i + o) * sumR o (fun j => entry G r j * entry G r' j) else 0.
Proof. exact backward_moments. Qed.
Print Assumptions C183_gradients.
(** C183: by what factors a fresh layer changes the mean squared lengths of signals: outputs/average size going forward,
    inputs/average size going back, where the bias counts as an input of the average size. *)
Theorem C183_signal_sizes : forall E (c : Criterion R) i o b X G m, standard_draws m E -> ((bias_rows b + i) * o <= m)%nat -> (0 < o)%nat -> mwf X -> mcols X = i -> mwf G -> mcols G = o ->
  exists Y B : (nat -> R) -> matrix R,
    (forall rng, net_predict (net_add rng (net_new c) (to_layer (KLinear i o b))) X = Ok (Y (rng 0%nat))) /\
    (forall z, nl_back_input (to_layer (KLinear i o b)) G X (Y z) (Mat (chunk (bias_rows b + i) o (linear_default_params (lin_l i o b) z)) o) = Ok (B z)) /\
    (forall r, (r < nrows X)%nat -> E (fun z => sumR o (fun j => entry (Y z) r j ^ 2)) = 2 * INR o / INR (bias_rows b + i + o) * ((if b then 1 else 0) + sumR i (fun k => entry X r k ^ 2))) /\
    (forall r, (r < nrows G)%nat -> E (fun z => sumR i (fun k => entry (B z) r k ^ 2)) = 2 * INR i / INR (bias_rows b + i + o) * sumR o (fun j => entry G r j ^ 2)).
Proof. exact signal_sizes. Qed.
Print Assumptions C183_signal_sizes.
