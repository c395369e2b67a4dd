(** Model of the reader of parameter files, /repo/libraries/plumbing/input.cpp and input.h.  Everything
    happens on rank 0, the other ranks take part in the broadcasts of the results only; so this is the
    reader of rank 0.  Characters are their codes; a file is the list of its characters.  What is
    printed is not modelled. *)
From Coq Require Import String.
From Verif Require Import Common SrcbufModel WordsModel CmdargsModel DecimalModel.
Open Scope list_scope.
Open Scope nat_scope.

(** [Leave] is the exit(1) at 263, [Throw] an exception of std::string or std::vector, [NoFuel] a loop
    that has not ended. *)
Inductive res (A : Type) : Type := Ok (a : A) | Leave | Throw | NoFuel.
Arguments Ok {A} a. Arguments Leave {A}. Arguments Throw {A}. Arguments NoFuel {A}.
Definition bind {A B : Type} (r : res A) (f : A -> res B) : res B :=
  match r with Ok a => f a | Leave => Leave | Throw => Throw | NoFuel => NoFuel end.
Notation "'get' x <- r ; k" := (bind r (fun x => k)) (at level 200, x pattern, r at level 100, k at level 200).

(** The members of the class (input.h 54-67): the rest of the file, linebuffer, lb_start and cmdline_p;
    [i_first] is file_number == 1, [i_cmd] the values of the -p flags of the command line, if the flag
    is present (cmdline.cpp 76-88). *)
Record input : Type := mkInput
  { i_file : text; i_line : text; i_start : nat; i_args : list text; i_first : bool; i_cmd : option (list text) }.
Definition set_line (x : input) (file line : text) (start : nat) : input :=
  mkInput file line start (i_args x) (i_first x) (i_cmd x).
Definition set_start (x : input) (start : nat) : input := set_line x (i_file x) (i_line x) start.

(** 27-92 open, of a file which can be opened: linebuffer and lb_start stay as they are. *)
Definition open (x : input) (file : text) (first : bool) (cmd : option (list text)) : input :=
  mkInput file (i_line x) (i_start x) [] first cmd.
(** input.h 54-67: a new variable; then open. *)
Definition new_input (file : text) (first : bool) (cmd : option (list text)) : input :=
  open (mkInput [] [] 0 [] false None) file first cmd.

(** "#ÄÄ#", 14, in UTF-8. *)
Definition used_flag : text := [35; 195; 132; 195; 132; 35]%Z.

(** 94-114 close: the file is released (nothing to do here); true if all values of -p were used, false
    if the program finishes because some were not. *)
Fixpoint all_used (l : list text) : bool :=
  match l with
  | [] => true
  | k :: [] => same_text k used_flag
  | k :: _ :: t => same_text k used_flag && all_used t
  end.
Definition close (x : input) : bool := negb (i_first x) || all_used (i_args x).

(** std::getline: the characters up to the end of line, which is removed. *)
Fixpoint cut_line (s : text) : text * text :=
  match s with
  | [] => ([], [])
  | c :: t => if (c =? 10)%Z then ([], t) else let '(l, r) := cut_line t in (c :: l, r)
  end.
(** 140-142: the part before the first comment character. *)
Fixpoint no_comment (s : text) : text :=
  match s with [] => [] | c :: t => if (c =? 35)%Z then [] else c :: no_comment t end.

(** 123-148 get_line; [n] bounds the number of lines looked at. *)
Fixpoint get_line (n : nat) (x : input) : res (bool * input) :=
  match n with
  | O => NoFuel
  | S n' =>
      match skip_space (i_file x) with
      | [] => Ok (false, set_line x [] [] 0)
      | f => let '(l, r) := cut_line f in
             match l with
             | [] => Throw
             | c :: _ => if (c =? 35)%Z then get_line n' (set_line x r l (i_start x))
                         else Ok (true, set_line x r (no_comment l) 0)
             end
      end
  end.

(** 180-188 remove_whitespace. *)
Fixpoint spaces (s : text) : nat := match s with [] => 0 | c :: t => if isspace c then S (spaces t) else 0 end.
Definition remove_whitespace (x : input) : res (bool * input) :=
  let k := i_start x + spaces (skipn (i_start x) (i_line x)) in
  if k =? length (i_line x) then get_line (S (length (i_file x))) (set_start x k)
  else Ok (true, set_start x k).

(** 206-211; [last] is last_char, [sp] is last_space. *)
Fixpoint skip_equal (p q : text) (last : Z) (sp : bool) : text * text * Z * bool :=
  match p, q with
  | a :: p', b :: q' => if (a =? b)%Z && negb (isspace b) then skip_equal p' q' a false else (p, q, last, sp)
  | _, _ => (p, q, last, sp)
  end.
(** 204-223, at most [n] rounds. *)
Fixpoint word_loop (n : nat) (p q : text) (last : Z) (sp : bool) : option (text * text * Z * bool) :=
  match n with
  | O => None
  | S n' =>
      match p, q with
      | [], _ | _, [] => Some (p, q, last, sp)
      | _, _ =>
          let '(p1, q1, last1, sp1) := skip_equal p q last sp in
          let both := isspace (char_at q1) && isspace (char_at p1) in
          let p2 := if both then skip_space p1 else p1 in
          let q2 := if both then skip_space q1 else q1 in
          let sp2 := if both then true else sp1 in
          if (char_at p2 =? char_at q2)%Z then word_loop n' p2 q2 last1 sp2 else Some (p2, q2, last1, sp2)
      end
  end.
(** 194-240 contains_word_list; the pointers are the texts from there to the terminating zero. *)
Definition has_words (x : input) (key : text) : res (bool * input) :=
  if length (i_line x) <? i_start x then Throw
  else
    let l := c_str (skipn (i_start x) (i_line x)) in
    match word_loop (S (length l)) (skip_space l) (skip_space (c_str key)) 0%Z false with
    | None => NoFuel
    | Some (p, q, last, sp) =>
        match skip_space q with
        | [] =>
            if sp || (char_at p =? 0)%Z || isspace (char_at p) || (last =? 44)%Z || (char_at p =? 44)%Z
            then Ok (true, set_start x (i_start x + (length l - length (skip_space p))))
            else Ok (false, x)
        | _ => Ok (false, x)
        end
    end.

(** 251-257: the number of characters taken and in_quotes. *)
Fixpoint token_end (s : text) (quotes : bool) : nat * bool :=
  match s with
  | [] => (0, quotes)
  | c :: t =>
      if (negb (isspace c) && negb (c =? 44)%Z) || quotes
      then let '(k, q) := token_end t (if (c =? 34)%Z then negb quotes else quotes) in (S k, q)
      else (0, quotes)
  end.
(** 246-267 peek_token, [None] is false. *)
Definition peek_token (x : input) : res (option text * input) :=
  get (b, x1) <- remove_whitespace x;
  if b : bool then
    if length (i_line x1) <? i_start x1 then Throw
    else
      let s := skipn (i_start x1) (i_line x1) in
      let '(k, quotes) := token_end s false in
      let k := if (k =? 0) && (char_at s =? 44)%Z then 1 else k in
      if quotes then Leave else Ok (Some (firstn k s), x1)
  else Ok (None, x1).
(** 271-277 get_token. *)
Definition get_token (x : input) : res (option text * input) :=
  get (t, x1) <- peek_token x;
  match t with
  | Some tok => Ok (Some tok, set_start x1 (i_start x1 + length tok))
  | None => Ok (None, x1)
  end.
(** 281-288 match_token. *)
Definition match_token (x : input) (tok : text) : res (bool * input) :=
  get (t, x1) <- peek_token x;
  match t with
  | Some s => if same_text s tok then Ok (true, set_start x1 (i_start x1 + length tok)) else Ok (false, x1)
  | None => Ok (false, x1)
  end.

(** 322-333: the value given for the key with -p, and cmdline_p after that. *)
Fixpoint override (l : list text) (key : text) : res (option text * list text) :=
  match l with
  | [] => Ok (None, [])
  | k :: t =>
      if same_text k key then
        match t with
        | [] => Throw
        | v :: _ => Ok (Some v, used_flag :: t)
        end
      else match t with
           | [] => Ok (None, l)
           | v :: t' => get (r, t2) <- override t' key; Ok (r, k :: v :: t2)
           end
  end.
(** 315-335 scan_cmdline. *)
Definition scan_cmdline (x : input) (key : text) : res input :=
  if i_first x then
    let args := match i_args x, i_cmd x with [], Some l => l | a, _ => a end in
    get (r, args2) <- override args key;
    let x2 := mkInput (i_file x) (i_line x) (i_start x) args2 (i_first x) (i_cmd x) in
    match r with
    | Some v => Ok (set_line x2 (i_file x2) (key ++ 32%Z :: v) (length key))
    | None => Ok x2
    end
  else Ok x.

(** 292-312 handle_key. *)
Definition handle_key (x : input) (key : text) : res (bool * input) :=
  get (_, x1) <- remove_whitespace x;
  get (b, x2) <- (if 0 <? length key then has_words x1 key else Ok (true, x1));
  if b : bool then get x3 <- scan_cmdline x2 key; Ok (true, x3) else Ok (false, x2).

(** The values.  347-356 remove_quotes; 342-345 is_value for strings. *)
Definition remove_quotes (s : text) : text := filter (fun c => negb (c =? 34)%Z) s.
Definition string_value (tok : text) : option text := Some (remove_quotes tok).
(** input.h 496-504 is_value for a signed integer type with the values [lo], ..., [hi]: operator>> of
    std::istringstream takes a sign and decimal digits and stops at the first other character. *)
Definition int_value (lo hi : Z) (tok : text) : option Z :=
  let '(neg, s) := take_sign (skip_space tok) in
  let '(v, k, _) := take_digits s 0%Z 0 in
  let v := if neg : bool then (- v)%Z else v in
  if k =? 0 then None else if ((lo <=? v) && (v <=? hi))%Z then Some v else None.

Section Values.
Context {T : Type}.
(** is_value of the type of the value. *)
Variable value : text -> option T.

(** input.h 307-337 get_value: [None] if it returns false. *)
Definition get_value (x : input) (key : text) : res (option T * input) :=
  get (b, x1) <- handle_key x key;
  if b : bool then
    get (t, x2) <- get_token x1;
    Ok (match t with Some tok => value tok | None => None end, x2)
  else Ok (None, x1).

(** input.h 340-363 get_value for complex numbers: the pair of real and imaginary part. *)
Definition get_number (x : input) : res (option T * input) :=
  get (t, x1) <- get_token x;
  Ok (match t with Some tok => value tok | None => None end, x1).
Definition get_complex (x : input) (key : text) : res (option (T * T) * input) :=
  get (b, x0) <- handle_key x key;
  if b : bool then
    get (b1, x1) <- match_token x0 (str "(");
    if b1 : bool then
      get (r, x2) <- get_number x1;
      match r with
      | Some re =>
          get (b3, x3) <- match_token x2 (str ",");
          if b3 : bool then
            get (i, x4) <- get_number x3;
            match i with
            | Some im =>
                get (b5, x5) <- match_token x4 (str ")");
                Ok (if b5 : bool then Some (re, im) else None, x5)
            | None => Ok (None, x4)
            end
          else Ok (None, x3)
      | None => Ok (None, x2)
      end
    else Ok (None, x1)
  else Ok (None, x0).

(** input.h 366-389 get_value for Vector<n,T>. *)
Fixpoint get_rest (n : nat) (x : input) : res (option (list T) * input) :=
  match n with
  | O => Ok (Some [], x)
  | S n' =>
      get (v, x1) <- get_value x (str ",");
      match v with
      | None => Ok (None, x1)
      | Some a => get (l, x2) <- get_rest n' x1; Ok (match l with Some l => Some (a :: l) | None => None end, x2)
      end
  end.
Definition get_vector (n : nat) (x : input) (key : text) : res (option (list T) * input) :=
  get (v, x1) <- get_value x key;
  match v with
  | None => Ok (None, x1)
  | Some a => get (l, x2) <- get_rest (n - 1) x1; Ok (match l with Some l => Some (a :: l) | None => None end, x2)
  end.

(** input.h 402-428 get_value for std::vector<T>; at most [n] rounds of the loop.  A failure leaves
    a last element {} in the vector, which is not given here. *)
Fixpoint get_more (n : nat) (x : input) : res (option (list T) * input) :=
  match n with
  | O => NoFuel
  | S n' =>
      get (b, x1) <- match_token x (str ",");
      if b : bool then
        get (v, x2) <- get_value x1 [];
        match v with
        | None => Ok (None, x2)
        | Some a => get (l, x3) <- get_more n' x2; Ok (match l with Some l => Some (a :: l) | None => None end, x3)
        end
      else Ok (Some [], x1)
  end.
(** The characters which are left, in the file and on the command line. *)
Definition left_over (x : input) : nat :=
  length (i_file x) + length (i_line x) + length (concat (i_args x)) +
  match i_cmd x with Some l => length (concat l) | None => 0 end.
Definition get_list (x : input) (key : text) : res (option (list T) * input) :=
  get (v, x1) <- get_value x key;
  match v with
  | None => Ok (None, x1)
  | Some a =>
      get (l, x2) <- get_more (S (left_over x1)) x1;
      Ok (match l with Some l => Some (a :: l) | None => None end, x2)
  end.
End Values.

(** 371-384 of get_item: the first of the items which matches the token; [k] counts them. *)
Fixpoint find_item (dbl : text -> bool) (x : input) (tok : text) (items : list text) (k : nat) : res (option nat * input) :=
  match items with
  | [] => Ok (None, x)
  | i :: rest =>
      if same_text i (str "%s") || (same_text i (str "%f") && dbl tok) ||
         (same_text i (str "%i") && match int_value (- 2 ^ 63) (2 ^ 63 - 1) tok with Some _ => true | None => false end)
      then Ok (Some k, x)
      else get (b, x1) <- has_words x i;
           if b : bool then Ok (Some k, x1) else find_item dbl x1 tok rest (S k)
  end.
(** 361-417 get_item; [dbl] is is_value for a double; [None] is -1. *)
Definition get_item (dbl : text -> bool) (x : input) (key : text) (items : list text) : res (option nat * input) :=
  get (b, x1) <- handle_key x key;
  if b : bool then
    get (t, x2) <- peek_token x1;
    match t with
    | Some tok => find_item dbl x2 tok items 0
    | None => Ok (None, x2)
    end
  else Ok (None, x1).
