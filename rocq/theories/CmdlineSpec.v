(** Specification of the command line parser. *)
From Coq Require Import String.
From Verif Require Import Common CmdlineModel.
Open Scope Z_scope.
Open Scope list_scope.

(** Every word with the flag it belongs to: the last flag-like word before it, or
    the word itself if it is one.  [cur] is the last flag-like word so far. *)
Fixpoint owned (cur : option string) (ws : list string) : list (option string * string) :=
  match ws with
  | [] => []
  | w :: ws' => let cur' := if flag_like w then Some w else cur in (cur', w) :: owned cur' ws'
  end.

Definition belongs (f : string) (q : option string * string) : bool :=
  match fst q with Some g => String.eqb g f | None => false end.

(** The words that are arguments of [f], in order. *)
Definition arguments (f : string) (argv : list string) : list string :=
  map snd (filter (fun q => belongs f q && negb (flag_like (snd q))) (owned None argv)).

(** The words that belong to none of the flags, in order (the program name is among
    them). *)
Definition foreign (fs : list string) (argv : list string) : list string :=
  map snd (filter (fun q => negb (existsb (fun f => belongs f q) fs)) (owned None argv)).

Definition starts_with_flag (ws : list string) : Prop :=
  match ws with [] => True | w :: _ => flag_like w = true end.

(** [f] occurs on the command line with arguments [vals]; [post] is what comes after. *)
Definition occurrence (f : string) (argv vals post : list string) : Prop :=
  exists pre, argv = pre ++ f :: vals ++ post /\
    Forall (fun w => flag_like w = false) vals /\ starts_with_flag post.

(** Distinct flags of the documented format. *)
Definition valid_flags (declared : argmap) : Prop :=
  NoDup (map fst declared) /\ Forall (fun f => flag_like f = true) (map fst declared).

(** The number of arguments asked for (negative: any). *)
Definition right_number (number : Z) (vals : list string) : Prop :=
  number < 0 \/ number = Z.of_nat (List.length vals).
