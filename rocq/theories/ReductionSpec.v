(** Specification of reduction variables: a history of calls is followed by an
    abstract variable with one mathematical value. *)
From Verif Require Import Common LayoutModel LayoutSpec ReduceModel ReduceSpec ReductionModel.

Section Spec.
  Variable V : Type.
  Variables (add mul : V -> V -> V) (zero one : V).
  (** The sites of each parity, in any order. *)
  Variable sites : parity -> list (list Z).

  (** [a_value]: the mathematical value.  [a_everywhere]: every rank holds it (else
      rank 0 only).  [a_open]: delayed contributions are not yet combined.
      [a_spoiled]: ranks other than 0 hold values that must not be combined
      (after a combination or [+=] outside of loops, until the next assignment). *)
  Record abs_red : Type := mkAbs {
    a_value : V; a_everywhere : bool; a_open : bool; a_spoiled : bool;
    a_pending : bool; a_all : bool; a_nonblocking : bool; a_delayed : bool }.

  Definition abs_new : abs_red := mkAbs zero true false false false true false false.

  (** What the history means, or [None] for the misuses:
      - [+=] outside of loops while delayed contributions are open, or while a
        non-blocking reduction is under way;
      - a delayed loop after the value was combined, without new assignment;
      - an immediate loop while delayed contributions are open. *)
  Definition abs_step (op : rop V) (a : abs_red) : option (abs_red * option (V * bool)) :=
    let close := fun pend =>
      if a_open a then mkAbs (a_value a) (a_all a) false true pend (a_all a) (a_nonblocking a) (a_delayed a)
      else mkAbs (a_value a) (a_everywhere a) false (a_spoiled a) (a_pending a && pend) (a_all a) (a_nonblocking a) (a_delayed a) in
    match op with
    | RAssign v => Some (mkAbs v false (a_open a) false false (a_all a) (a_nonblocking a) (a_delayed a), None)
    | RPlus v =>
        if a_pending a || a_open a then None
        else Some (mkAbs (add (a_value a) v) (a_everywhere a) false true false (a_all a) (a_nonblocking a) (a_delayed a), None)
    | RLoop p g =>
        let v := add (a_value a) (total add zero (map g (sites p))) in
        if a_delayed a then
          if a_spoiled a then None
          else Some (mkAbs v false true false false (a_all a) (a_nonblocking a) (a_delayed a), None)
        else
          if a_open a then None
          else Some (mkAbs v (a_all a) false true (a_nonblocking a) (a_all a) (a_nonblocking a) (a_delayed a), None)
    | RStart => if a_open a then Some (close (a_nonblocking a), None) else Some (close true, None)
    | RReduce => Some (close false, None)
    | RValue => let a' := close false in Some (a', Some (a_value a', a_everywhere a'))
    | RNonblocking b => Some (mkAbs (a_value a) (a_everywhere a) (a_open a) (a_spoiled a) (a_pending a) (a_all a) b (a_delayed a), None)
    | RAllreduce b => Some (mkAbs (a_value a) (a_everywhere a) (a_open a) (a_spoiled a) (a_pending a) b (a_nonblocking a) (a_delayed a), None)
    | RDelayed b => Some (mkAbs (a_value a) (a_everywhere a) (a_open a) (a_spoiled a) (a_pending a) (a_all a) (a_nonblocking a) b, None)
    end.

  Fixpoint abs_run (ops : list (rop V)) (a : abs_red) : option (list (option (V * bool))) :=
    match ops with
    | [] => Some []
    | op :: ops' =>
        match abs_step op a with
        | None => None
        | Some (a', o) => match abs_run ops' a' with Some os => Some (o :: os) | None => None end
        end
    end.

  (** What was read agrees: on rank 0, and on all ranks if the value is everywhere. *)
  Definition agrees (lat : lattice) (expected : option (V * bool)) (got : option (Z -> V)) : Prop :=
    match expected, got with
    | None, None => True
    | Some (v, everywhere), Some f => f 0 = v /\ (everywhere = true -> forall r, is_rank lat r -> f r = v)
    | _, _ => False
    end.

  (** ** Vectors *)
  Record abs_vec : Type := mkAbsVec {
    av_size : nat; av_value : nat -> V; av_everywhere : bool; av_open : bool;
    av_pending : bool; av_all : bool; av_nonblocking : bool; av_delayed : bool }.

  Definition abs_vec_new (n : nat) : abs_vec := mkAbsVec n (fun _ => zero) true false false true false false.

  (** The contributions of site c to element j. *)
  Definition contributions (op : V -> V -> V) (e : V) (g : list Z -> list (nat * V)) (j : nat) (c : list Z) : V :=
    total op e (map snd (filter (fun u => Nat.eqb (fst u) j) (g c))).

  (** Misuses: assignment or element access while a non-blocking reduction is under
      way; assignment, reading or immediate loops while delayed contributions are
      open; delayed products; an element index outside of the vector. *)
  Definition abs_vec_step (op : vop V) (a : abs_vec) : option (abs_vec * option (V * bool)) :=
    let close := fun pend =>
      if av_open a then mkAbsVec (av_size a) (av_value a) (av_all a) false pend (av_all a) (av_nonblocking a) (av_delayed a)
      else mkAbsVec (av_size a) (av_value a) (av_everywhere a) false (av_pending a && pend) (av_all a) (av_nonblocking a) (av_delayed a) in
    match op with
    | VAssign v =>
        if av_pending a || av_open a then None
        else Some (mkAbsVec (av_size a) (fun _ => v) true false false (av_all a) (av_nonblocking a) (av_delayed a), None)
    | VSet j v =>
        if av_pending a || av_open a || negb (j <? av_size a)%nat then None
        else Some (mkAbsVec (av_size a) (fun k => if Nat.eqb k j then v else av_value a k) (av_everywhere a) false false (av_all a) (av_nonblocking a) (av_delayed a), None)
    | VLoop prod p g =>
        let opn := if prod then mul else add in
        let e := if prod then one else zero in
        let v := fun j => opn (av_value a j) (total opn e (map (contributions opn e g j) (sites p))) in
        if negb (forallb (fun c => forallb (fun u => (fst u <? av_size a)%nat) (g c)) (sites p)) then None
        else if av_delayed a then
          if prod then None
          else Some (mkAbsVec (av_size a) v false true false (av_all a) (av_nonblocking a) (av_delayed a), None)
        else
          if av_open a then None
          else Some (mkAbsVec (av_size a) v (av_all a) false (av_nonblocking a) (av_all a) (av_nonblocking a) (av_delayed a), None)
    | VStart => if av_open a then Some (close (av_nonblocking a), None) else Some (close true, None)
    | VWait => Some (mkAbsVec (av_size a) (av_value a) (av_everywhere a) (av_open a) false (av_all a) (av_nonblocking a) (av_delayed a), None)
    | VReduce => Some (close false, None)
    | VRead j => if av_pending a || av_open a || negb (j <? av_size a)%nat then None else Some (a, Some (av_value a j, av_everywhere a))
    | VNonblocking b => Some (mkAbsVec (av_size a) (av_value a) (av_everywhere a) (av_open a) (av_pending a) (av_all a) b (av_delayed a), None)
    | VAllreduce b => Some (mkAbsVec (av_size a) (av_value a) (av_everywhere a) (av_open a) (av_pending a) b (av_nonblocking a) (av_delayed a), None)
    | VDelayed b => Some (mkAbsVec (av_size a) (av_value a) (av_everywhere a) (av_open a) (av_pending a) (av_all a) (av_nonblocking a) b, None)
    end.

  Fixpoint abs_vec_run (ops : list (vop V)) (a : abs_vec) : option (list (option (V * bool))) :=
    match ops with
    | [] => Some []
    | op :: ops' =>
        match abs_vec_step op a with
        | None => None
        | Some (a', o) => match abs_vec_run ops' a' with Some os => Some (o :: os) | None => None end
        end
    end.
End Spec.
Arguments abs_new {V}. Arguments abs_run {V}. Arguments agrees {V}. Arguments abs_vec_new {V}. Arguments abs_vec_run {V}.
Arguments mkAbs {V}. Arguments a_value {V}. Arguments a_everywhere {V}. Arguments a_open {V}. Arguments a_spoiled {V}. Arguments a_pending {V}.
Arguments a_all {V}. Arguments a_nonblocking {V}. Arguments a_delayed {V}. Arguments abs_step {V}.
Arguments mkAbsVec {V}. Arguments av_size {V}. Arguments av_value {V}. Arguments av_everywhere {V}. Arguments av_open {V}. Arguments av_pending {V}.
Arguments av_all {V}. Arguments av_nonblocking {V}. Arguments av_delayed {V}. Arguments abs_vec_step {V}. Arguments contributions {V}.
