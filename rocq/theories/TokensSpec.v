(** Program text as a sequence of lexical items, and what replacing names means. *)
From Verif Require Import Common SrcbufModel WordsModel.
Open Scope nat_scope.

Inductive item :=
| Name (w : text)            (** an identifier or keyword *)
| Number (w : text)          (** a number: a digit, and then letters, digits and _ *)
| Line (w : text)            (** // and the rest of the line *)
| Directive (w : text)       (** # and the rest of the line *)
| Comment (w : text)         (** / * w * / *)
| String (w : list (bool * Z)) (** "w"; true: with a backslash before the character *)
| Char (escaped : bool) (c : Z) (** 'c' or '\c' *)
| Other (c : Z).             (** any other character *)

Definition escape (e : bool) (c : Z) : text := if e then [92%Z; c] else [c].
Definition item_text (i : item) : text :=
  match i with
  | Name w | Number w => w
  | Line w => [47%Z; 47%Z] ++ w
  | Directive w => 35%Z :: w
  | Comment w => [47%Z; 42%Z] ++ w ++ [42%Z; 47%Z]
  | String w => [34%Z] ++ concat (map (fun ec => escape (fst ec) (snd ec)) w) ++ [34%Z]
  | Char e c => [39%Z] ++ escape e c ++ [39%Z]
  | Other c => [c]
  end.
Definition program_text (p : list item) : text := concat (map item_text p).

(** What each item consists of, given the text after it. *)
Definition name_char (c : Z) : Prop := isword c = true.
Definition item_ok (i : item) (rest : text) : Prop :=
  match i with
  | Name w => (exists c w', w = c :: w' /\ name_char c /\ isdigit c = false) /\ Forall name_char w /\
      (forall c r, rest = c :: r -> isword c = false)
  | Number w => (exists c w', w = c :: w' /\ isdigit c = true) /\ Forall name_char w /\
      (forall c r, rest = c :: r -> isword c = false)
  | Line w | Directive w => ~ In 10%Z w /\ (rest = [] \/ exists r, rest = 10%Z :: r)
  | Comment w => forall u v, w <> u ++ [42%Z; 47%Z] ++ v
  | String w => forall c, In (false, c) w -> c <> 34%Z /\ c <> 92%Z
  | Char e c => e = false -> c <> 39%Z /\ c <> 92%Z
  | Other c => isword c = false /\ ~ In c [34; 35; 39]%Z /\
      (c = 47%Z -> forall d r, rest = d :: r -> d <> 47%Z /\ d <> 42%Z)
  end.
Fixpoint program_ok (p : list item) : Prop :=
  match p with [] => True | i :: q => item_ok i (program_text q) /\ program_ok q end.

(** The program with the names replaced: by the text beside the first equal name, if any. *)
Inductive renamed (ab : list (text * text)) : text -> text -> nat -> Prop :=
| renamed_to l1 w b l2 : ab = l1 ++ (w, b) :: l2 -> ~ In w (map fst l1) -> renamed ab w b 1
| renamed_not w : ~ In w (map fst ab) -> renamed ab w w 0.
Inductive program_renamed (ab : list (text * text)) : list item -> text -> nat -> Prop :=
| pr_nil : program_renamed ab [] [] 0
| pr_name w x k p y m : renamed ab w x k -> program_renamed ab p y m ->
    program_renamed ab (Name w :: p) (x ++ y) (k + m)
| pr_other i p y m : (forall w, i <> Name w) -> program_renamed ab p y m ->
    program_renamed ab (i :: p) (item_text i ++ y) m.

(** Numbers without letters, and comments that do not begin with a slash. *)
Definition plain (i : item) : Prop :=
  match i with
  | Number w => Forall (fun c => isdigit c = true) w
  | Comment w => forall r, w <> 47%Z :: r
  | _ => True
  end.
