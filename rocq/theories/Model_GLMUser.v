(** * Model of [src/learning/glm.rs]: a family defined by a user *)
From Coq Require Import List.
From Verif Require Import Base Num NumFn Linalg Model_GLM.

Section User.
  Context {F : Type} {N : Num F} {NF : NumFn F}.
  (** An implementation of the public trait [Criterion] that gives only the required items, glm.rs lines 148-153
      ([type Link] and [model_variance]), and inherits the default methods, lines 158-195. *)
  Definition user_family (link : LinkFunc F) (variance : F -> F) : Criterion F :=
    {| cr_link := link; cr_variance := variance; cr_initialize_mu := default_mu;
       cr_working_weight := fun mu => Ok (default_weight link variance mu);
       cr_y_bar := default_y_bar link |}.
End User.
