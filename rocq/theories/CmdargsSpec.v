(** What the treatment of the preprocessor's command line is for. *)
From Coq Require Import String.
From Verif Require Import Common SrcbufModel WordsModel CmdargsModel.
Open Scope nat_scope.
Open Scope list_scope.

Definition starts_with (a b : text) : Prop := exists t, a = b ++ t.

(** -D and -I with the value as the next argument, and with the value in the same argument. *)
Definition option_word (a : text) : Prop := a = str "-D" \/ a = str "-I".
Definition include_or_define (a : text) : Prop := starts_with a (str "-D") \/ starts_with a (str "-I").

(** [split_options l kept moved]: [moved] are the -D and -I options of [l], [kept] is what is left.
    An option word at the very end has no value. *)
Inductive split_options : list text -> list text -> list text -> Prop :=
| split_nil : split_options [] [] []
| split_two : forall a v l kept moved, option_word a -> split_options l kept moved ->
    split_options (a :: v :: l) kept (a :: v :: moved)
| split_one : forall a l kept moved, include_or_define a -> ~ option_word a \/ l = [] -> split_options l kept moved ->
    split_options (a :: l) kept (a :: moved)
| split_other : forall a l kept moved, ~ include_or_define a -> split_options l kept moved ->
    split_options (a :: l) (a :: kept) moved.

(** The list is cut at the last "--"; if there is none it all comes before. *)
Definition cut_at_ddash (args before after : list text) : Prop :=
  ~ In (str "--") after /\
  (args = before ++ str "--" :: after \/ (~ In (str "--") args /\ before = args /\ after = [])).

Definition is_std (a : text) : bool := begins a (str "-std").
Definition known_std (a : text) : Prop := In a [str "-std=c++17"; str "-std=c++20"; str "-std=c++23"; str "-std=c++26"].
(** The language standard asked for: the last one given, else c++17. *)
Definition chosen_std (args : list text) : text := last (filter is_std args) (str "-std=c++17").

(** [name] is g++-<number>, as the shell lists it. *)
Definition digit (d : Z) : Prop := (0 <= d <= 9)%Z.
Definition named (ds : list Z) : text := str "g++-" ++ map (Z.add 48) ds ++ [newline].
Definition number (ds : list Z) : Z := fold_left (fun v d => v * 10 + d)%Z ds 0%Z.
