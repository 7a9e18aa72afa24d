(** * Model of [src/learning/optim/fmincg.rs]

    [Optimizable::compute_grad] is a parameter, as in Model_Optim.  The conversions [as i32] of
    [iters] and [max] (lines 99, 131) are taken to be exact, that is, [iters] and [max] are below
    2^31; then [length] is not negative and the branches for [length < 0] (lines 122-124, 133,
    175-177, 223-225) are not taken.  The evaluated points are recorded in [.._calls], newest
    first; the code does not keep this list. *)
From Coq Require Import List Arith Bool.
From Verif Require Import Base Num Linalg Model_Optim.
Import ListNotations.
Local Open Scope num_scope.

Section CG.
  Context {F : Type} {N : Num F}.

  (** fmincg.rs lines 40-56. *)
  Record ConjugateGD := {
    cg_rho : F; cg_sig : F; cg_int : F; cg_ext : F; cg_max : nat; cg_ratio : F; cg_iters : nat }.
  (** fmincg.rs lines 69-81. *)
  Definition cg_default : ConjugateGD :=
    {| cg_rho := nonev / nofnat 100; cg_sig := nonev / nofnat 2; cg_int := nonev / nofnat 10; cg_ext := nofnat 3;
       cg_max := 20; cg_ratio := nofnat 100; cg_iters := 100 |}.

  (** Powers of two: [f64::MIN_POSITIVE] (fmincg.rs line 243) is 2^-1022. *)
  Fixpoint pow2 (n : nat) : F := match n with O => nonev | S n' => nofnat 2 * pow2 n' end.
  (** [f64::MIN_POSITIVE], used in fmincg.rs line 243. *)
  Definition min_positive : F := nonev / pow2 1022.
  (** [-0.5] (fmincg.rs lines 197, 202, 204, 208). *)
  Definition mhalf : F := nopp (nonev / nofnat 2).

  (** The variables of a line search (fmincg.rs lines 118-137), except [m]. *)
  Record Search := {
    ls_x : list F; ls_z1 : F; ls_f2 : F; ls_df2 : list F; ls_d2 : F; ls_f3 : F; ls_d3 : F; ls_z3 : F; ls_limit : F;
    ls_calls : list (list F) }.

  Section Run.
    Variable self : ConjugateGD.
    Variable compute_grad : list F -> res (F * list F).
    (** [f1], [d1] and [s] do not change during a line search. *)
    Variables (f1 d1 : F) (s : list F).

    (** fmincg.rs lines 142 and 183: the first two Wolfe-Powell conditions are violated. *)
    Definition cg_bad (st : Search) : bool :=
      (f1 + ls_z1 st * cg_rho self * d1 <? ls_f2 st) || (nopp (cg_sig self) * d1 <? ls_d2 st).

    (** [is_nan() || is_infinite()], fmincg.rs lines 154 and 196. *)
    Definition not_finite (z : F) : bool := negb (nfinite z).

    (** fmincg.rs lines 149-150 and 192-193. *)
    Definition cg_a (st : Search) : F :=
      nofnat 6 * (ls_f2 st - ls_f3 st) / ls_z3 st + nofnat 3 * (ls_d2 st + ls_d3 st).
    (** fmincg.rs lines 150 and 193. *)
    Definition cg_b (st : Search) : F :=
      nofnat 3 * (ls_f3 st - ls_f2 st) - ls_z3 st * (nofnat 2 * ls_d2 st + ls_d3 st).

    (** fmincg.rs lines 146-152. *)
    Definition interp_step (st : Search) : F :=
      let z3 := ls_z3 st in
      if f1 <? ls_f2 st then
        z3 - (nonev / nofnat 2 * ls_d3 st * z3 * z3) / (ls_d3 st * z3 + ls_f2 st - ls_f3 st)
      else
        (nsqrt (cg_b st * cg_b st - cg_a st * ls_d2 st * z3 * z3) - cg_b st) / cg_a st.
    (** fmincg.rs lines 154-166. *)
    Definition interp_clamp (z3 z2 : F) : F :=
      let z2 := if not_finite z2 then z3 / nofnat 2 else z2 in
      let lo := (nonev - cg_int self) * z3 in
      let hi := cg_int self * z3 in
      if z2 <=? hi then (if z2 <=? lo then lo else z2)
      else if hi <=? lo then lo else hi.

    (** fmincg.rs lines 168-173 and 179 (215-220 and 227). *)
    Definition move (st : Search) (z2 f3 d3 z3 limit : F) : res Search :=
      let? x := rvadd (ls_x st) (vscale z2 s) in
      let? (f2, df2) := compute_grad x in
      Ok {| ls_x := x; ls_z1 := ls_z1 st + z2; ls_f2 := f2; ls_df2 := df2; ls_d2 := dot df2 s;
            ls_f3 := f3; ls_d3 := d3; ls_z3 := z3; ls_limit := limit; ls_calls := x :: ls_calls st |}.

    (** fmincg.rs lines 142-181; returns the state and the remaining [m]. *)
    Fixpoint interp_loop (m : nat) (st : Search) : res (Search * nat) :=
      match m with
      | O => Ok (st, O)
      | S m' =>
          if cg_bad st then
            let z2 := interp_clamp (ls_z3 st) (interp_step st) in
            let? st' := move st z2 (ls_f3 st) (ls_d3 st) (ls_z3 st - z2) (ls_z1 st) in
            interp_loop m' st'
          else Ok (st, m)
      end.

    (** fmincg.rs lines 192-210. *)
    Definition extrap_step (st : Search) : F :=
      let z1 := ls_z1 st in let z3 := ls_z3 st in let limit := ls_limit st in
      let z2 := nopp (ls_d2 st) * z3 * z3 / (cg_b st + nsqrt (cg_b st * cg_b st - cg_a st * ls_d2 st * z3 * z3)) in
      if not_finite z2 || (z2 <? nzero) then
        if limit <? mhalf then z1 * (cg_ext self - nonev) else (limit - z1) / nofnat 2
      else if (mhalf <? limit) && (limit <? z2 + z1) then (limit - z1) / nofnat 2
      else if (limit <? mhalf) && (z1 * cg_ext self <? z2 + z1) then z1 * (cg_ext self - nonev)
      else if z2 <? nopp z3 * cg_int self then nopp z3 * cg_int self
      else if (mhalf <? limit) && (z2 <? (limit - z1) * (nonev - cg_int self)) then (limit - z1) * (nonev - cg_int self)
      else z2.

    (** fmincg.rs lines 139-228; returns the state and [success].  Every round but the last lowers [m], so
        [S m] rounds suffice. *)
    Fixpoint search_loop (fuel m : nat) (st : Search) : res (Search * bool) :=
      match fuel with
      | O => Panic
      | S fuel' =>
          let? (st, m) := interp_loop m st in
          if cg_bad st then Ok (st, false)
          else if cg_sig self * d1 <? ls_d2 st then Ok (st, true)
          else match m with
               | O => Ok (st, false)
               | S m' =>
                   let z2 := extrap_step st in
                   let? st' := move st z2 (ls_f2 st) (ls_d2 st) (nopp z2) (ls_limit st) in
                   search_loop fuel' m' st'
               end
      end.
  End Run.

  (** fmincg.rs lines 90-132: the variables of the outer loop. *)
  Record Round := {
    rd_x : list F; rd_f1 : F; rd_df1 : list F; rd_s : list F; rd_d1 : F; rd_z1 : F; rd_failed : bool; rd_calls : list (list F) }.

  Section Outer.
    Variable self : ConjugateGD.
    Variable compute_grad : list F -> res (F * list F).

    (** fmincg.rs lines 114-137: the first step of a line search. *)
    Definition search_start (st : Round) : res Search :=
      let? x := rvadd (rd_x st) (vscale (rd_z1 st) (rd_s st)) in
      let? (f2, df2) := compute_grad x in
      Ok {| ls_x := x; ls_z1 := rd_z1 st; ls_f2 := f2; ls_df2 := df2; ls_d2 := dot df2 (rd_s st);
            ls_f3 := rd_f1 st; ls_d3 := rd_d1 st; ls_z3 := nopp (rd_z1 st); ls_limit := nopp nonev; ls_calls := x :: rd_calls st |}.
    (** fmincg.rs lines 231-251. *)
    Definition accept (st : Round) (ls : Search) : res Round :=
      let df2 := ls_df2 ls in
      let? diff := rvsub df2 (rd_df1 st) in
      let? s := rvsub (map (fun x => x / dot (rd_df1 st) (rd_df1 st)) (vscale (dot diff df2) (rd_s st))) df2 in
      let d2 := dot df2 s in
      let reset := nzero <? d2 in
      let s := if reset then map nopp df2 else s in
      let d2 := if reset then nopp (dot s s) else d2 in
      let ratio := rd_d1 st / (d2 - min_positive) in
      Ok {| rd_x := ls_x ls; rd_f1 := ls_f2 ls; rd_df1 := df2; rd_s := s; rd_d1 := d2;
            rd_z1 := ls_z1 ls * (if cg_ratio self <? ratio then cg_ratio self else ratio); rd_failed := false; rd_calls := ls_calls ls |}.
    (** fmincg.rs lines 253-254 and 260-266. *)
    Definition reject (st : Round) (ls : Search) : Round :=
      let s := map nopp (ls_df2 ls) in
      let d1 := nopp (dot s s) in
      {| rd_x := rd_x st; rd_f1 := rd_f1 st; rd_df1 := ls_df2 ls; rd_s := s; rd_d1 := d1;
         rd_z1 := nonev / (nonev - d1); rd_failed := true; rd_calls := ls_calls ls |}.

    (** fmincg.rs lines 109-269, with [n] rounds left; [i] (line 111) is the number of the round. *)
    Fixpoint cg_loop (n : nat) (st : Round) : res Round :=
      match n with
      | O => Ok st
      | S n' =>
          let i := (cg_iters self - n')%nat in
          let? ls := search_start st in
          let? (ls, success) := search_loop self compute_grad (rd_f1 st) (rd_d1 st) (rd_s st) (S (cg_max self)) (cg_max self) ls in
          if success then let? st' := accept st ls in cg_loop n' st'
          else if rd_failed st || (cg_iters self <? i)%nat then
            Ok {| rd_x := rd_x st; rd_f1 := rd_f1 st; rd_df1 := rd_df1 st; rd_s := rd_s st; rd_d1 := rd_d1 st;
                  rd_z1 := rd_z1 st; rd_failed := rd_failed st; rd_calls := ls_calls ls |}
          else cg_loop n' (reject st ls)
      end.
    (** fmincg.rs lines 90-107. *)
    Definition cg_start (start : list F) : res Round :=
      let? (f1, df1) := compute_grad start in
      let s := map nopp df1 in
      let d1 := nopp (dot s s) in
      Ok {| rd_x := start; rd_f1 := f1; rd_df1 := df1; rd_s := s; rd_d1 := d1; rd_z1 := nonev / (nonev - d1);
            rd_failed := false; rd_calls := [start] |}.
    (** fmincg.rs lines 84-271; the returned vector is [rd_x], the evaluated points are [rd_calls]. *)
    Definition cg_run (start : list F) : res Round :=
      let? st := cg_start start in cg_loop (cg_iters self) st.
    (** fmincg.rs lines 84-271: what [optimize] returns. *)
    Definition cg_optimize (start : list F) : res (list F) :=
      let? st := cg_run start in Ok (rd_x st).
  End Outer.
End CG.
Arguments ConjugateGD : clear implicits. Arguments Search : clear implicits. Arguments Round : clear implicits.
