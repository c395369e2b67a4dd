(** What a parameter file says, independently of the reader.  Blanks are the characters of isspace in
    the "C" locale (space, tab, line ends, form feed). *)
From Coq Require Import String.
From Verif Require Import Common SrcbufModel CmdargsModel InputModel.
Open Scope list_scope.
Open Scope nat_scope.

(** The lines of a file. *)
Fixpoint lines (s : text) : list text :=
  match s with
  | [] => [[]]
  | c :: t =>
      if (c =? 10)%Z then [] :: lines t
      else match lines t with l :: r => (c :: l) :: r | [] => [[c]] end
  end.
(** The part of a line before the comment character '#'. *)
Fixpoint uncommented (s : text) : text :=
  match s with [] => [] | c :: t => if (c =? 35)%Z then [] else c :: uncommented t end.
(** A text without the blanks at its beginning. *)
Fixpoint trim (s : text) : text := match s with [] => [] | c :: t => if isspace c then trim t else s end.
(** The lines which say something: without comments, indentation and blank lines. *)
Definition significant (file : text) : list text :=
  filter (fun l => match l with [] => false | _ => true end) (map (fun l => trim (uncommented l)) (lines file)).

Definition blanks (s : text) : Prop := Forall (fun c => isspace c = true) s.
Definition visible (s : text) : Prop := Forall (fun c => isspace c = false) s.
(** No zero character. *)
Definition plain (s : text) : Prop := Forall (fun c => c <> 0%Z) s.
Definition word (s : text) : Prop := s <> [] /\ visible s.

(** The words of a key: [spelled ws key] says that [key] consists of the words [ws], separated by
    blanks, with any blanks before and after. *)
Inductive spelled : list text -> text -> Prop :=
| spelled_end : forall s, blanks s -> spelled [] s
| spelled_last : forall s w e, blanks s -> word w -> blanks e -> spelled [w] (s ++ w ++ e)
| spelled_more : forall s w g ws key, blanks s -> word w -> g <> [] -> blanks g -> ws <> [] ->
    spelled ws key -> spelled (w :: ws) (s ++ w ++ g ++ key).

(** [begins ws l r]: the line [l] begins with the words [ws], separated by blanks; [r] follows. *)
Inductive begins : list text -> text -> text -> Prop :=
| begins_last : forall w r, begins [w] (w ++ r) r
| begins_more : forall w g ws l r, g <> [] -> blanks g -> begins ws l r -> begins (w :: ws) (w ++ g ++ l) r.
(** Where a key may end: at the end of the line, before a blank or a comma, or after a comma. *)
Definition key_end (ws : list text) (r : text) : Prop :=
  match r with [] => True | c :: _ => isspace c = true \/ c = 44%Z end \/ exists u, last ws [] = u ++ [44%Z].
Definition has_key (ws : list text) (l r : text) : Prop := begins ws l r /\ key_end ws r.

(** One value: a word without commas and quotes, or a text between quotes, possibly with blanks and
    commas in it.  [item t v]: [t] is written in the file, [v] is the text meant. *)
Definition no_comma_quote (s : text) : Prop := Forall (fun c => c <> 44%Z /\ c <> 34%Z) s.
Inductive item : text -> text -> Prop :=
| item_word : forall t, word t -> no_comma_quote t -> item t t
| item_quoted : forall v, Forall (fun c => c <> 34%Z) v -> item (34%Z :: v ++ [34%Z]) v.

(** [listed ts ls]: the lines [ls] contain the values [ts] separated by commas, with any blanks around
    the commas and after the last value; after a comma the list may go on on the next line. *)
Inductive listed : list text -> list text -> Prop :=
| listed_last : forall t e, blanks e -> listed [t] [t ++ e]
| listed_more : forall t b g ts l ls, blanks b -> blanks g -> listed ts (l :: ls) ->
    listed (t :: ts) ((t ++ b ++ [44%Z] ++ g ++ l) :: ls)
| listed_next : forall t b g ts l ls, blanks b -> blanks g -> listed ts (l :: ls) ->
    listed (t :: ts) ((t ++ b ++ [44%Z] ++ g) :: l :: ls).

(** An entry of a parameter file: the words of the key and the values, on the lines [ls]. *)
Definition entry (ws ts : list text) (ls : list text) : Prop :=
  exists k g l r, ls = (k ++ g ++ l) :: r /\ begins ws k [] /\ g <> [] /\ blanks g /\ listed ts (l :: r).

(** What a program can ask for: one value, a list of any length, a list of a given length, a complex
    number, or a choice among items; and the answers. *)
Inductive call : Type :=
  One (key : text) | Many (key : text) | Exactly (n : nat) (key : text) | Pair (key : text) | Choice (key : text) (items : list text).
Inductive answer (T : Type) : Type := Values (l : list T) | Chosen (k : nat) | Failed.
Arguments Values {T} l. Arguments Chosen {T} k. Arguments Failed {T}.

Section Programs.
Context {T : Type}.
(** How the text of a value is read, and whether a text is a number. *)
Variable value : text -> option T.
Variable number : text -> bool.

Definition perform (c : call) (x : input) : res (answer T * input) :=
  match c with
  | One key => get (a, y) <- get_value value x key; Ok (match a with Some v => Values [v] | None => Failed end, y)
  | Many key => get (a, y) <- get_list value x key; Ok (match a with Some l => Values l | None => Failed end, y)
  | Exactly n key => get (a, y) <- get_vector value n x key; Ok (match a with Some l => Values l | None => Failed end, y)
  | Pair key => get (a, y) <- get_complex value x key; Ok (match a with Some (re, im) => Values [re; im] | None => Failed end, y)
  | Choice key items => get (a, y) <- get_item number x key items; Ok (match a with Some k => Chosen k | None => Failed end, y)
  end.
Fixpoint perform_all (cs : list call) (x : input) : res (list (answer T) * input) :=
  match cs with
  | [] => Ok ([], x)
  | c :: cs' =>
      get (a, y) <- perform c x;
      get (l, z) <- perform_all cs' y;
      Ok (a :: l, z)
  end.
(** Only the answers. *)
Definition answers (r : res (list (answer T) * input)) : res (list (answer T)) := get (l, _) <- r; Ok l.

(** A call which asks for the values [ts], with the key of the words [ws]. *)
Definition asks (c : call) (key : text) (n : nat) : Prop :=
  match c with
  | One k => k = key /\ n = 1
  | Many k => k = key
  | Exactly m k => k = key /\ n = m
  | _ => False
  end.
Definition good_key (ws : list text) (key : text) : Prop :=
  spelled ws key /\ ws <> [] /\ Forall no_comma_quote ws /\ plain key /\ ~ In 35%Z key.

(** The values given with -p <key> <value>; the first one for a key, and the others. *)
Definition flat (ps : list (text * text)) : list text := flat_map (fun p => [fst p; snd p]) ps.
Fixpoint take (ps : list (text * text)) (key : text) : option (text * list (text * text)) :=
  match ps with
  | [] => None
  | (k, v) :: t =>
      if list_eq_dec Z.eq_dec k key then Some (v, t)
      else match take t key with Some (w, t') => Some (w, (k, v) :: t') | None => None end
  end.

(** The text of a value and its meaning. *)
Definition means (t : text) (a : T) : Prop := (exists v, item t v) /\ value t = Some a.

(** The key of a call. *)
Definition key_of (c : call) : text :=
  match c with One k | Many k | Exactly _ k | Pair k | Choice k _ => k end.

(** [served ps cs ls answers ps']: the calls [cs] ask, in this order, for the entries on the lines [ls]
    of a file, and some of them for keys which are not the next one in the file; with the pairs [ps] on
    the command line the answers are [answers] and the pairs [ps'] are not used.  The line of a parameter
    which is given on the command line has to be there, whatever is after the key. *)
Inductive served : list (text * text) -> list call -> list text -> list (answer T) -> list (text * text) -> Prop :=
| served_end : forall ps, served ps [] [] [] ps
| served_file : forall ps ps' c cs key ws ts l ls r ans,
    good_key ws key -> asks c key (length ts) -> take ps key = None ->
    entry ws ts ls -> Forall2 means ts l -> served ps cs r ans ps' ->
    served ps (c :: cs) (ls ++ r) (Values l :: ans) ps'
| served_arg : forall ps ps1 ps' c cs key ws ts l line t v r ans,
    good_key ws key -> asks c key (length ts) -> take ps key = Some (v, ps1) ->
    has_key ws line t -> listed ts [trim v] -> plain v -> Forall2 means ts l -> served ps1 cs r ans ps' ->
    served ps (c :: cs) (line :: r) (Values l :: ans) ps'
| served_absent : forall ps ps' c cs ws ls ans,
    good_key ws (key_of c) -> (forall l r t, ls = l :: r -> ~ has_key ws l t) -> served ps cs ls ans ps' ->
    served ps (c :: cs) ls (Failed :: ans) ps'.
End Programs.

(** A decimal number: an optional sign and digits. *)
Definition digits (d : text) : Prop := d <> [] /\ Forall (fun c => (48 <= c <= 57)%Z) d.
Definition number_of (d : text) : Z := fold_left (fun v c => (10 * v + (c - 48))%Z) d 0%Z.
Inductive decimal : text -> Z -> Prop :=
| decimal_plain : forall d, digits d -> decimal d (number_of d)
| decimal_plus : forall d, digits d -> decimal (43%Z :: d) (number_of d)
| decimal_minus : forall d, digits d -> decimal (45%Z :: d) (- number_of d)%Z.

(** [fits number t l i]: the item [i] of a choice fits the text [l], which begins with the value [t].
    "%s" stands for any text, "%f" for a number, "%i" for a text which can be read as an integer; the
    other items are words. *)
Definition stands (number : text -> bool) (t i : text) : Prop :=
  i = str "%s" \/ (i = str "%f" /\ number t = true) \/
  (i = str "%i" /\ int_value (- 2 ^ 63) (2 ^ 63 - 1) t <> None).
Definition fits (number : text -> bool) (t l i : text) : Prop :=
  stands number t i \/ exists ws r, spelled ws i /\ has_key ws l r.
(** What is to be read next after the item [i] was chosen: the words of an item are read, the text for
    which "%s", "%f" or "%i" stands is not. *)
Definition after (number : text -> bool) (t l i r : text) : Prop :=
  (stands number t i /\ r = l) \/ (~ stands number t i /\ exists ws, spelled ws i /\ has_key ws l r).
