(** Model of the string helpers of the preprocessor, /repo/hilapp/src/stringops.cpp.  Characters
    are their codes; bytes of 128 and above are neither letters nor blanks (the code calls
    isalnum and isspace with a char, in the "C" locale).  [None] in a result of [find] is npos. *)
From Verif Require Import Common SrcbufModel.
Open Scope nat_scope.

Definition isdigit (c : Z) : bool := ((48 <=? c) && (c <=? 57))%Z.
Definition isalpha (c : Z) : bool := (((65 <=? c) && (c <=? 90)) || ((97 <=? c) && (c <=? 122)))%Z.
Definition isalnum (c : Z) : bool := isdigit c || isalpha c.
(** isalnum(c) || c == '_', 33, 98, 102. *)
Definition isword (c : Z) : bool := isalnum c || (c =? 95)%Z.

Fixpoint same_text (a b : text) : bool :=
  match a, b with
  | [], [] => true
  | x :: a', y :: b' => (x =? y)%Z && same_text a' b'
  | _, _ => false
  end.

(** std::string::find and rfind (library): the first occurrence at [pos] or later, the last one at
    [pos] or earlier. *)
Definition match_at (s p : text) (i : nat) : bool := same_text (firstn (length p) (skipn i s)) p.
Fixpoint find_up (s p : text) (n i : nat) : option nat :=
  match n with
  | O => None
  | S n' => if match_at s p i then Some i else find_up s p n' (S i)
  end.
Definition find (s p : text) (pos : nat) : option nat := find_up s p (S (length s) - pos) pos.
Fixpoint find_down (s p : text) (i : nat) : option nat :=
  if match_at s p i then Some i else match i with O => None | S i' => find_down s p i' end.
Definition rfind (s p : text) (pos : nat) : option nat :=
  if length p <=? length s then find_down s p (Nat.min pos (length s - length p)) else None.

(** 87-106 find_word.  The position is not negative and fits in an int; the limit at 100 is
    computed in 64-bit unsigned arithmetic; in[in.length()] is the zero character. *)
Definition find_word (s p : text) (pos : nat) (reverse : bool) : option nat :=
  match (if reverse then rfind s p pos else find s p pos) with
  | None => None
  | Some i =>
      if (0 <? i) && isword (nth (i - 1) s 0%Z) then None
      else if (Z.of_nat i <? (Z.of_nat (length s) - Z.of_nat (length p) - 1) mod 2 ^ 64)%Z
              && isword (nth (i + length p) s 0%Z) then None
      else Some i
  end.

(** 112-113 c_str(): the text up to the first zero character; the terminating zero is the end of
    the list. *)
Fixpoint c_str (s : text) : text :=
  match s with [] => [] | c :: t => if (c =? 0)%Z then [] else c :: c_str t end.

Fixpoint skip_space (p : text) : text :=
  match p with [] => [] | c :: t => if isspace c then skip_space t else p end.
(** 123-126. *)
Fixpoint skip_same (p q : text) : text * text :=
  match p, q with
  | x :: p', y :: q' => if (x =? y)%Z then skip_same p' q' else (p, q)
  | _, _ => (p, q)
  end.
Definition char_at (p : text) : Z := match p with [] => 0%Z | c :: _ => c end.

(** 114-127 the loop, with at most [n] rounds ([None]: more were needed). *)
Fixpoint match_words (n : nat) (p q : text) : option (text * text) :=
  match n with
  | O => None
  | S n' =>
      match p, q with
      | [], _ | _, [] => Some (p, q)
      | _, _ =>
          let p1 := skip_space p in
          let q1 := skip_space q in
          if (char_at p1 =? char_at q1)%Z then let '(p2, q2) := skip_same p1 q1 in match_words n' p2 q2
          else Some (p1, q1)
      end
  end.

(** 111-139 contains_word_list: [Some None] is false, [Some (Some r)] is true with remainder [r]. *)
Definition contains_word_list (line lst : text) : option (option text) :=
  do pq <- match_words (S (length line + length lst)) (c_str line) (c_str lst);
  let '(p, q) := pq in
  match skip_space q with [] => Some (Some (skip_space p)) | _ => Some None end.

(** 60-71 remove_initial_whitespace: only blanks and tabs. *)
Definition istab (c : Z) : bool := ((c =? 32) || (c =? 9))%Z.
Fixpoint remove_initial_whitespace (s : text) : text :=
  match s with [] => [] | c :: t => if istab c then remove_initial_whitespace t else s end.

(** 73-82 remove_all_whitespace. *)
Fixpoint remove_all_whitespace (s : text) : text :=
  match s with [] => [] | c :: t => if isspace c then remove_all_whitespace t else c :: remove_all_whitespace t end.

(** 146-156 the loop of remove_extra_whitespace; [out] is out[0..j-1]. *)
Fixpoint squeeze (s : text) (previous_char_space : bool) (out : text) : text :=
  match s with
  | [] => out
  | c :: t =>
      if negb (isspace c) then squeeze t false (out ++ [c])
      else squeeze t true (if negb previous_char_space then out ++ [blank] else out)
  end.
(** 142-161 remove_extra_whitespace. *)
Definition remove_extra_whitespace (s : text) : text :=
  let out := squeeze s true [] in
  if (0 <? length out) && (last out 0 =? blank)%Z then removelast out else out.

(** 196-210 comment_string; [n] rounds of the loop. *)
Definition comment : text := [47; 47; 45; 45; 32; 32]%Z.
Fixpoint comment_loop (n : nat) (res : text) (i : nat) : option text :=
  match n with
  | O => None
  | S n' =>
      if i <? length res then
        match find res [newline] i with
        | None => Some res
        | Some k => comment_loop n' (firstn (k + 1) res ++ comment ++ skipn (k + 1) res) (k + 1)
        end
      else Some res
  end.
Definition comment_string (s : text) : option text := comment_loop (length s + 2) (comment ++ s) 0.

(** 163-194 indent_string; [lev] may become negative. *)
Definition count_of (c : Z) (s : text) : Z := Z.of_nat (length (filter (Z.eqb c) s)).
Fixpoint indent_loop (n : nat) (s res : text) (lev : Z) (current i : nat) : option text :=
  match n with
  | O => None
  | S n' =>
      if i <? length s then
        let k := find s [newline] current in
        let line := match k with
                    | None => skipn current s
                    | Some k => firstn (k - current + 1) (skipn current s)
                    end in
        let line := remove_initial_whitespace line in
        let lev1 := (lev - count_of 125 line)%Z in
        let res1 := res ++ concat (repeat [blank; blank] (Z.to_nat lev1)) ++ line in
        let lev2 := (lev1 + count_of 123 line)%Z in
        match k with
        | None => Some res1
        | Some k => indent_loop n' s res1 lev2 (k + 1) k
        end
      else Some res
  end.
Definition indent_string (s : text) : option text := indent_loop (length s + 2) s [] 0 0 0.

(** 27-58 clean_name. *)
Definition clean_char (c : Z) : Z :=
  if isword c then c
  else if (c =? 43)%Z then 80%Z
  else if (c =? 45)%Z then 77%Z
  else if (c =? 42)%Z then 88%Z
  else if (c =? 47)%Z then 68%Z
  else if (c =? 61)%Z then 69%Z
  else 95%Z.
Definition clean_name (s : text) : text := map clean_char s.

(** 215-233 remove_X: the text and *was_there.  The test for '+' at 227 looks at the argument [s],
    not at [r]. *)
Definition remove_X (s : text) : text * bool :=
  let r := remove_extra_whitespace s in
  match r with
  | [] => (r, false)
  | c :: _ =>
      if negb (c =? 88)%Z then (r, false)
      else
        let i := 1 in
        let i := if (i <? length r) && isspace (nth i r 0%Z) then i + 1 else i in
        let i := if (i <? length r) && (nth i s 0 =? 43)%Z then
                   (if (i + 1 <? length r) && isspace (nth (i + 1) r 0%Z) then i + 2 else i + 1)
                 else i in
        (skipn i r, true)
  end.
