(** * C195: updating the distribution of one class ([src/learning/naive_bayes.rs]) *)
From Coq Require Import List Arith Reals.
From Verif Require Import Base Num NumFn Linalg Model_NaiveBayes Spec_NBUpdate Proof_NBUpdate.
Import ListNotations.

(** [Bernoulli::update_params] overwrites the row of its class with numbers that depend on the data only, and panics if there is no such class. *)
Theorem C195_bernoulli : forall (F : Type) (N : Num F) (Fn : NumFn F) (data : matrix F),
  exists r, length r = mcols data /\ forall (p : Smooth F) c, mcols data = mcols (s_log_probs p) -> 0 < mcols data ->
    (c < nrows (s_log_probs p) -> exists p', d_update _ Bernoulli p data c = (p', Ok tt) /\ overwrites (s_log_probs p) c r (s_log_probs p')) /\
    (nrows (s_log_probs p) <= c -> d_update _ Bernoulli p data c = (p, Panic)).
Proof. exact @bernoulli_updates. Qed.
Print Assumptions C195_bernoulli.

(** So does [Multinomial::update_params]. *)
Theorem C195_multinomial : forall (F : Type) (N : Num F) (Fn : NumFn F) (data : matrix F),
  exists r, length r = mcols data /\ forall (p : Smooth F) c, mcols data = mcols (s_log_probs p) -> 0 < mcols data ->
    (c < nrows (s_log_probs p) -> exists p', d_update _ Multinomial p data c = (p', Ok tt) /\ overwrites (s_log_probs p) c r (s_log_probs p')) /\
    (nrows (s_log_probs p) <= c -> d_update _ Multinomial p data c = (p, Panic)).
Proof. exact @multinomial_updates. Qed.
Print Assumptions C195_multinomial.

(** [Gaussian::update_params] does so for means and variances, after refusing data with fewer than two rows. *)
Theorem C195_gaussian : forall (F : Type) (N : Num F) (Fn : NumFn F) (data : matrix F),
  exists t s, length t = mcols data /\ length s = mcols data /\
    forall (p : Gauss F) c, mcols data = mcols (g_theta p) -> nrows (g_sigma p) = nrows (g_theta p) -> 0 < mcols data ->
    (nrows data < 2 -> d_update _ Gaussian p data c = (p, Err InvalidData)) /\
    (2 <= nrows data -> c < nrows (g_theta p) -> exists p', d_update _ Gaussian p data c = (p', Ok tt) /\
       overwrites (g_theta p) c t (g_theta p') /\ overwrites (g_sigma p) c s (g_sigma p')) /\
    (2 <= nrows data -> nrows (g_theta p) <= c -> d_update _ Gaussian p data c = (p, Panic)).
Proof. exact @gaussian_updates. Qed.
Print Assumptions C195_gaussian.
Example C195_ex : let data := Mat [[1; 0]; [1; 1]]%R 2 in let p := d_new _ (Bernoulli (F := R)) 3 2 in let g := d_new _ (Gaussian (F := R)) 3 2 in
  mcols data = mcols (s_log_probs p) /\ 0 < mcols data /\ 1 < nrows (s_log_probs p) /\ nrows (s_log_probs p) <= 7 /\
  2 <= nrows data /\ mcols data = mcols (g_theta g) /\ nrows (g_sigma g) = nrows (g_theta g) /\ 1 < nrows (g_theta g).
Proof. cbn. repeat split; repeat constructor. Qed.
