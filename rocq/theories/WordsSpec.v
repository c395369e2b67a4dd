(** What the string helpers of the preprocessor are for, independent of how they work. *)
From Verif Require Import Common SrcbufModel WordsModel.
Open Scope nat_scope.

(** [p] stands in [s] at index [i]. *)
Definition occurs (s p : text) (i : nat) : Prop := exists a b, s = a ++ p ++ b /\ length a = i.

(** The occurrence found by a search from [pos] up, or from [pos] down. *)
Definition nearest (s p : text) (pos : nat) (reverse : bool) (i : nat) : Prop :=
  occurs s p i /\
  (if reverse then i <= pos /\ forall j, i < j -> j <= pos -> ~ occurs s p j
   else pos <= i /\ forall j, pos <= j -> j < i -> ~ occurs s p j).

(** No letter, digit or underscore just before index [i]; none at index [i]. *)
Definition word_starts (s : text) (i : nat) : Prop := forall a c b, s = a ++ c :: b -> length a + 1 = i -> isword c = false.
Definition word_ends (s : text) (i : nat) : Prop := forall a c b, s = a ++ c :: b -> length a = i -> isword c = false.
Definition whole_word (s p : text) (i : nat) : Prop :=
  occurs s p i /\ word_starts s i /\ word_ends s (i + length p).

(** The words of a text: its maximal runs of characters that are not white space. *)
Definition flush (w : text) : list text := match w with [] => [] | _ => [w] end.
Fixpoint words_from (w s : text) : list text :=
  match s with
  | [] => flush w
  | c :: t => if isspace c then flush w ++ words_from [] t else words_from (w ++ [c]) t
  end.
Definition words : text -> list text := words_from [].

(** The characters that are not white space. *)
Definition letters (s : text) : text := filter (fun c => negb (isspace c)) s.
Definition no_space_first (s : text) : Prop := match s with [] => True | c :: _ => isspace c = false end.
Definition no_zero (s : text) : Prop := ~ In 0%Z s.

Fixpoint join (sep : text) (ws : list text) : text :=
  match ws with
  | [] => []
  | [w] => w
  | w :: ws' => w ++ sep ++ join sep ws'
  end.

(** The lines of a text, without their newlines: "a\nb" and "a\n" have two. *)
Fixpoint lines (s : text) : list text :=
  match s with
  | [] => [[]]
  | c :: t =>
      if (c =? newline)%Z then [] :: lines t
      else match lines t with [] => [[c]] | l :: ls => (c :: l) :: ls end
  end.

(** The depth of braces at the start of each line counts the braces of the earlier ones, less the
    closing braces of the line itself. *)
Fixpoint depths (lev : Z) (ls : list text) : list Z :=
  match ls with
  | [] => []
  | l :: t => (lev - count_of 125 l)%Z :: depths (lev - count_of 125 l + count_of 123 l)%Z t
  end.
Definition indent_line (d : Z) (l : text) : text := concat (repeat [blank; blank] (Z.to_nat d)) ++ remove_initial_whitespace l.
Fixpoint indent_lines (ds : list Z) (ls : list text) : list text :=
  match ds, ls with d :: ds', l :: ls' => indent_line d l :: indent_lines ds' ls' | _, _ => [] end.
