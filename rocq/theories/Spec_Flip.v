(** Changing the signs of the units of a network (C181, C182). *)
From Coq Require Import List Arith Bool Reals.
From Verif Require Import Base Num NumFn Linalg Model_Toolkit Model_NNet Spec_NNet.
Import ListNotations.
Local Open Scope R_scope.

(** [true] at position [k] of [bs] changes the sign of entry [k]. *)
Definition flipped (bs : list bool) (v : list R) : list R := map2 (fun (b : bool) x => if b then - x else x) bs v.
(** The same in each row of a matrix. *)
Definition flip_rows (bs : list bool) (X : matrix R) : matrix R := {| mrows := map (flipped bs) (mrows X); mcols := mcols X |}.
(** The units of each linear layer whose sign changes are given by the next list of [ss]; layers without a list keep their signs. *)
Definition next_signs (o : nat) (ss : list (list bool)) : list bool := hd (repeat false o) ss.
Definition odd_activ (a : Activ R) : Prop := forall x, af a (- x) = - af a x.
(** Signs change only before activations that pass a change of sign on; inputs change by [p]. *)
Fixpoint signs_fit (ks : list (LayerKind R)) (p : list bool) (ss : list (list bool)) : Prop :=
  match ks with
  | [] => True
  | KLinear _ o _ :: ks' => length (next_signs o ss) = o /\ signs_fit ks' (next_signs o ss) (tl ss)
  | KActiv a :: ks' => (odd_activ a \/ ~ In true p) /\ signs_fit ks' p ss
  end.
(** A weight changes its sign if exactly one of the two units that it joins does; the bias belongs to one unit only. *)
Definition layer_signs (bias : bool) (p q : list bool) : list bool := flat_map (fun r => map (xorb r) q) ((if bias then [false] else []) ++ p).
Fixpoint weight_signs (ks : list (LayerKind R)) (p : list bool) (ss : list (list bool)) : list bool :=
  match ks with
  | [] => []
  | KLinear i o b :: ks' => layer_signs b p (next_signs o ss) ++ weight_signs ks' (next_signs o ss) (tl ss)
  | KActiv _ :: ks' => weight_signs ks' p ss
  end.
(** The outputs that change their sign. *)
Fixpoint output_signs (ks : list (LayerKind R)) (p : list bool) (ss : list (list bool)) : list bool :=
  match ks with
  | [] => p
  | KLinear _ o _ :: ks' => output_signs ks' (next_signs o ss) (tl ss)
  | KActiv _ :: ks' => output_signs ks' p ss
  end.
(** Regularisations whose gradient changes sign with the weight. *)
Definition even_reg (r : Regularization R) : Prop := match r with RegL2 _ | RegNone => True | RegL1 _ | RegElasticNet _ _ => False end.
