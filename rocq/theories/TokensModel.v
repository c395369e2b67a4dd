(** Model of srcBuf::replace_tokens, /repo/hilapp/src/srcbuf.cpp 618-679.  Characters are their codes as in WordsModel.  The vectors a and b, which have
    the same length at the calls, are a list of pairs.  The edits that replace makes (569-573)
    are made in the text that is returned (C36 says that the buffer then has this text); the
    number is the number of replacements.  [None] is a failed assertion (a wrong range, or a comment
    that is not closed), or that more rounds were needed than there is fuel.  A position past the end of the
    buffer is the end of the list. *)
From Verif Require Import Common SrcbufModel WordsModel.
Open Scope nat_scope.

(** 633: letters and _ *)
Definition starts_name (c : Z) : bool := isalpha c || (c =? 95)%Z.
(** 635-636: the longest prefix of letters, digits and _, and the rest *)
Fixpoint take_name (l : text) : text * text :=
  match l with
  | c :: t => if isword c then let '(w, r) := take_name t in (c :: w, r) else ([], l)
  | [] => ([], [])
  end.
(** 639-646: the first a[j] equal to the token *)
Fixpoint substitute (ab : list (text * text)) (w : text) : text * nat :=
  match ab with
  | [] => (w, 0)
  | (a, b) :: ab' => if same_text w a then (b, 1) else substitute ab' w
  end.
(** 650-651, 660-661: up to the end of the line *)
Fixpoint take_line (l : text) : text * text :=
  match l with
  | c :: t => if (c =? 10)%Z then ([], l) else let '(w, r) := take_line t in (c :: w, r)
  | [] => ([], [])
  end.
(** 655-657: up to and with the next */ *)
Fixpoint take_comment (l : text) : option (text * text) :=
  match l with
  | [] => None
  | c :: t =>
      if (c =? 42)%Z && (char_at t =? 47)%Z && negb (length t =? 0) then Some ([c; 47%Z], tl t)
      else do wr <- take_comment t; Some (c :: fst wr, snd wr)
  end.
(** 664-667: up to and with the closing quote; a backslash skips the next character *)
Fixpoint take_string (escaped : bool) (l : text) : text * text :=
  match l with
  | [] => ([], [])
  | c :: t =>
      if escaped then let '(w, r) := take_string false t in (c :: w, r)
      else if (c =? 34)%Z then ([c], t)
      else let '(w, r) := take_string (c =? 92)%Z t in (c :: w, r)
  end.
Definition take (n : nat) (l : text) : text * text := (firstn n l, skipn n l).
(** 647-675: the characters that one round skips, and the rest.  The text t ends at end; the search
    for the end of a comment and the character after a quote are in the whole buffer, in which post
    follows. *)
Definition skip_round (post : text) (c : Z) (t : text) : option (text * text) :=
  if (c =? 47)%Z && (char_at t =? 47)%Z then let '(w, r) := take_line t in Some (c :: w, r)
  else if (c =? 47)%Z && (char_at t =? 42)%Z then
    do wr <- take_comment (t ++ post); Some (take (S (length (fst wr))) (c :: t))
  else if (c =? 35)%Z then let '(w, r) := take_line t in Some (c :: w, r)
  else if (c =? 34)%Z then let '(w, r) := take_string false t in Some (c :: w, r)
  else if (c =? 39)%Z then Some (take (if (char_at (t ++ post) =? 92)%Z then 4 else 3) (c :: t))
  else Some ([c], t).

(** 630-677 *)
Fixpoint replace_loop (n : nat) (ab : list (text * text)) (post l : text) : option (text * nat) :=
  match n with
  | O => None
  | S n' =>
      match l with
      | [] => Some ([], 0)
      | c :: t =>
          if starts_name c then
            let '(w, r) := take_name l in
            let '(x, k) := substitute ab w in
            do res <- replace_loop n' ab post r; Some (x ++ fst res, k + snd res)
          else
            do wr <- skip_round post c t;
            do res <- replace_loop n' ab post (snd wr); Some (fst wr ++ fst res, snd res)
      end
  end.
(** 618-628: the characters start to stop (end) of the buffer *)
Definition replace_tokens (ab : list (text * text)) (start stop : nat) (buf : text) : option (text * nat) :=
  if (start <=? stop) && (stop <? length buf) then
    let l := firstn (S stop - start) (skipn start buf) in
    let post := skipn (S stop) buf in
    do res <- replace_loop (S (length l)) ab post l;
    Some (firstn start buf ++ fst res ++ post, snd res)
  else None.
(** 698-700: the whole buffer *)
Definition replace_all (ab : list (text * text)) (buf : text) : option (text * nat) :=
  replace_tokens ab 0 (length buf - 1) buf.
