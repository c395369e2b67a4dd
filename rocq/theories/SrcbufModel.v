(** Model of the buffer of edited source text, /repo/hilapp/src/srcbuf.cpp and srcbuf.h
    (marked h).  Characters are their codes.  Indices into the buffer are natural numbers (a
    negative int fails the same assert as a too large one).  [None] is a failed assert or an
    access outside a vector. *)
From Verif Require Import Common RandomModel.
Open Scope nat_scope.

Definition text := list Z.

(** h 24-35.  [free_ext] is a stack, top first; full_length is exact (the code has unsigned). *)
Record srcbuf := mkBuf {
  buf : text;
  ext_ind : list Z;
  extents : list text;
  free_ext : list nat;
  prependbuf : text;
  write_ok : bool;
  modified : bool;
  full_length : Z;
  original_size : nat;
  true_size : nat }.

Definition bind {A B : Type} (a : option A) (f : A -> option B) : option B :=
  match a with Some x => f x | None => None end.
Notation "'do' x <- a ; b" := (bind a (fun x => b)) (at level 200, x pattern, a at level 100, b at level 200).
Definition check {A : Type} (b : bool) (r : option A) : option A := if b then r else None.

Definition blank : Z := 32%Z.
Definition newline : Z := 10%Z.
Definition isspace (c : Z) : bool := ((c =? 32) || ((9 <=? c) && (c <=? 13)))%Z.

(** 25-45 create: [text] is the text of the source range, which the Rewriter has not edited. *)
Definition create (text : text) : srcbuf :=
  let n := length text in
  mkBuf (text ++ [blank; blank]) (repeat 1%Z n ++ [0; 0]%Z) [] [] [] true false (Z.of_nat n) n n.

(** Assignment of the edit tables; every edit sets [modified]. *)
Definition with_table (st : srcbuf) (ei : list Z) (ex : list text) (fr : list nat) (fl : Z) : srcbuf :=
  mkBuf (buf st) ei ex fr (prependbuf st) (write_ok st) true fl (original_size st) (true_size st).

(** The place in [extents] that an entry of [ext_ind] refers to. *)
Definition slot (e : Z) : nat := Z.to_nat (Z.abs e - 2).
Definition has_slot (e : Z) : bool := (1 <? Z.abs e)%Z.

(** 292-298 is_extent, 316-320 get_extent_ptr. *)
Definition is_extent (st : srcbuf) (i : nat) : option bool :=
  check (i <? true_size st) (do e <- nth_error (ext_ind st) i; Some (has_slot e)).

Definition get_extent_ptr (st : srcbuf) (i : nat) : option (option (nat * text)) :=
  do x <- is_extent st i;
  if x then do e <- nth_error (ext_ind st) i; do s <- nth_error (extents st) (slot e); Some (Some (slot e, s)) else Some None.

(** 284-286 is_edited. *)
Definition is_edited (st : srcbuf) (i : nat) : option bool := do e <- nth_error (ext_ind st) i; Some (negb (e =? 1)%Z).

(** 177-180 get_original. *)
Definition get_original (st : srcbuf) (i : nat) : option Z := check (i <? original_size st) (nth_error (buf st) i).

(** 69-80 get_index_range_size: the loop over [n] indices from [i]. *)
Fixpoint range_size (st : srcbuf) (n i : nat) : option Z :=
  match n with
  | O => Some 0%Z
  | S n' => do e <- nth_error (ext_ind st) i;
            do x <- (if has_slot e then do s <- nth_error (extents st) (slot e); Some (Z.of_nat (length s)) else Some 0%Z);
            do r <- range_size st n' (S i);
            Some ((if 0 <? e then 1 else 0) + x + r)%Z
  end.
Definition get_index_range_size (st : srcbuf) (i1 i2 : nat) : option Z :=
  check ((i1 <=? i2) && (i2 <? true_size st)) (range_size st (S i2 - i1) i1).

(** 118-146 get_mapped.  [out] is the written part of the result (out[0..i) in the code, which
    is filled with blanks beforehand); [n] is the number of places left, [j] the place;
    [skipping] is true inside the loop of 127-128.  When that loop reaches the end nothing is
    written, but i advances: a blank stays. *)
Fixpoint walk (st : srcbuf) (len : nat) (n j : nat) (skipping : bool) (out : text) : option text :=
  match n with
  | O => Some (if skipping then out ++ [blank] else out)
  | S n' =>
      if skipping || (length out <? len) then
        do e <- nth_error (ext_ind st) j;
        if (e =? 0)%Z then walk st len n' (S j) true out
        else if (e =? 1)%Z then do c <- nth_error (buf st) j; walk st len n' (S j) false (out ++ [c])
        else do s <- nth_error (extents st) (slot e);
             let out1 := out ++ firstn (len - length out) s in
             if (length out1 <? len) && (0 <? e)%Z then do c <- nth_error (buf st) j; walk st len n' (S j) false (out1 ++ [c])
             else walk st len n' (S j) false out1
      else Some out
  end.
Definition get_mapped (st : srcbuf) (index len : nat) : option text := walk st len (true_size st - index) index false [].

(** 149-152 get, 166-171 dump. *)
Definition get (st : srcbuf) (i1 i2 : nat) : option text :=
  do n <- get_index_range_size st i1 i2; get_mapped st i1 (Z.to_nat n).
Definition dump (st : srcbuf) : option text :=
  do t <- get_mapped st 0 (Z.to_nat (full_length st)); Some (prependbuf st ++ t).

(** 300-314 remove_extent. *)
Definition remove_extent (st : srcbuf) (i : nat) : option srcbuf :=
  if write_ok st then
    do e <- nth_error (ext_ind st) i;
    if has_slot e then
      do s <- nth_error (extents st) (slot e);
      Some (with_table st (put i (if 0 <? e then 1 else 0)%Z (ext_ind st)) (put (slot e) [] (extents st))
                       (slot e :: free_ext st) (full_length st - Z.of_nat (length s)))
    else Some (with_table st (ext_ind st) (extents st) (free_ext st) (full_length st))
  else Some st.

(** 324-338 remove. *)
Fixpoint remove_loop (st : srcbuf) (n i : nat) : option srcbuf :=
  match n with
  | O => Some st
  | S n' => do st1 <- remove_extent st i;
            do e <- nth_error (ext_ind st1) i;
            remove_loop (if (0 <? e)%Z then with_table st1 (put i 0%Z (ext_ind st1)) (extents st1) (free_ext st1) (full_length st1 - 1) else st1) n' (S i)
  end.
Definition remove (st : srcbuf) (i1 i2 : nat) : option srcbuf :=
  check ((i1 <=? i2) && (i2 <? true_size st))
        (if write_ok st then
           do st1 <- remove_loop st (S i2 - i1) i1; Some (with_table st1 (ext_ind st1) (extents st1) (free_ext st1) (full_length st1))
         else Some st).

(** 427-429: start of the line of place [i]: one after the newline found going back from i-1. *)
Fixpoint line_start (b : text) (i : nat) : nat :=
  match i with
  | O => O
  | S j => if (nth j b 0 =? newline)%Z then i else line_start b j
  end.

(** 431-432: end of the white space from [k], before [i] ([n] = i - k). *)
Fixpoint space_end (b : text) (n k : nat) : nat :=
  match n with
  | O => k
  | S n' => if isspace (nth k b 0%Z) then space_end b n' (S k) else k
  end.

(** 435-446: the indent is put after every newline of [s]; std::string::find gives the next. *)
Fixpoint add_indent (indent s : text) : text :=
  match s with
  | [] => []
  | c :: s' => if (c =? newline)%Z then c :: indent ++ add_indent indent s' else c :: add_indent indent s'
  end.

(** 422-448 *)
Definition indented (st : srcbuf) (i : nat) (s : text) : text :=
  let j := line_start (buf st) i in
  let k := space_end (buf st) (i - j) j in
  add_indent (firstn (k - j) (skipn j (buf st))) s.

(** 405-474 insert. *)
Definition insert (st0 : srcbuf) (i : nat) (s_in : text) (incl_before do_indent : bool) : option srcbuf :=
  if write_ok st0 then
    let st := mkBuf (buf st0) (ext_ind st0) (extents st0) (free_ext st0) (prependbuf st0) (write_ok st0) true (full_length st0)
                    (original_size st0) (if i =? original_size st0 then original_size st0 + 1 else true_size st0) in
    check (i <? true_size st)
      (let s := if do_indent then indented st i s_in else s_in in
       let fl := (full_length st + Z.of_nat (length s))%Z in
       do p <- get_extent_ptr st i;
       match p with
       | Some (j, old) => Some (with_table st (ext_ind st) (put j (if incl_before then s ++ old else old ++ s) (extents st)) (free_ext st) fl)
       | None =>
           do e <- nth_error (ext_ind st) i;
           match free_ext st with
           | [] => let j := length (extents st) in
                   Some (with_table st (put i (if 0 <? e then Z.of_nat j + 2 else - (Z.of_nat j + 2))%Z (ext_ind st))
                                    (extents st ++ [s]) [] fl)
           | j :: fr => check (j <? length (extents st))
                   (Some (with_table st (put i (if 0 <? e then Z.of_nat j + 2 else - (Z.of_nat j + 2))%Z (ext_ind st))
                                    (put j s (extents st)) fr fl))
           end
       end)
  else Some st0.

(** 571-575 replace, 587-589 append, 591-597 prepend. *)
Definition replace (st : srcbuf) (i1 i2 : nat) (s : text) : option srcbuf :=
  do st1 <- remove st i1 i2; insert st1 i1 s true false.
Definition append (st : srcbuf) (s : text) (do_indent : bool) : option srcbuf := insert st (original_size st) s false do_indent.
Definition prepend (st : srcbuf) (s : text) : srcbuf :=
  if write_ok st then
    mkBuf (buf st) (ext_ind st) (extents st) (free_ext st) (s ++ prependbuf st) (write_ok st) true
          (full_length st + Z.of_nat (length s)) (original_size st) (true_size st)
  else st.

(** h 61-66 off, on. *)
Definition set_write (st : srcbuf) (w : bool) : srcbuf :=
  mkBuf (buf st) (ext_ind st) (extents st) (free_ext st) (prependbuf st) w (modified st) (full_length st) (original_size st) (true_size st).

(** 599-613 copy_from_range: [a] is the index of the first character in [src], [n] the number
    of characters of the range, which lies in the original text of [src] (otherwise the new
    buffer would have text from outside [src]: not modelled, a failure). *)
Fixpoint copy_loop (src dst : srcbuf) (n i a : nat) : option srcbuf :=
  match n with
  | O => Some dst
  | S n' => do e <- nth_error (ext_ind src) (i + a);
            do dst1 <- (if (e <=? 0)%Z then remove dst i i else Some dst);
            do p <- get_extent_ptr src (i + a);
            do dst2 <- match p with Some (_, s) => insert dst1 i s true false | None => Some dst1 end;
            copy_loop src dst2 n' (S i) a
  end.
Definition copy_from_range (src : srcbuf) (a n : nat) : option srcbuf :=
  check ((0 <? n) && (a + n <=? original_size src)) (copy_loop src (create (firstn n (skipn a (buf src)))) n 0 a).
