(** What an edited text is: each place of the original text has a piece of text put before it
    (or none) and its character is kept or not; one more place stands for the end. *)
From Coq Require Import String Ascii.
From Verif Require Import Common RandomModel SrcbufModel.
Open Scope nat_scope.

Record cell := mkCell { before : option text; kept : bool }.
Definition gone : cell := mkCell None false.

(** [d_on]: edits are obeyed; [d_end]: text has been put at the end. *)
Record doc := mkDoc { d_text : text; d_cells : list cell; d_front : text; d_on : bool; d_end : bool }.

Definition fresh (t : text) : doc := mkDoc t (repeat (mkCell None true) (List.length t) ++ [gone]) [] true false.

Definition size (d : doc) : nat := List.length (d_text d) + (if d_end d then 1 else 0).

(** The text shown by one place and by places. *)
Definition show1 (x : cell * Z) : text :=
  (match before (fst x) with Some s => s | None => [] end) ++ (if kept (fst x) then [snd x] else []).
Definition show (cells : list cell) (chars : text) : text := flat_map show1 (combine cells chars).

Definition shown (d : doc) : text := show (d_cells d) (d_text d ++ [blank]).
Definition shown_part (d : doc) (i1 i2 : nat) : text :=
  show (firstn (S i2 - i1) (skipn i1 (d_cells d))) (skipn i1 (d_text d ++ [blank])).

(** The white space at the start of the line of place i, as far as it lies before i. *)
Fixpoint after_last_newline (s : text) : text :=
  match s with
  | [] => []
  | c :: s' => if existsb (fun x => (x =? newline)%Z) s' then after_last_newline s' else if (c =? newline)%Z then s' else s
  end.
Fixpoint leading_space (s : text) : text :=
  match s with c :: s' => if isspace c then c :: leading_space s' else [] | [] => [] end.
Definition indent_at (t : text) (i : nat) : text := leading_space (after_last_newline (firstn i t)).
Definition indent_lines (indent s : text) : text := flat_map (fun c => if (c =? newline)%Z then c :: indent else [c]) s.

(** Edits. *)
Inductive edit : Type :=
| Insert (i : nat) (s : text) (first indent : bool)
| Remove (i1 i2 : nat)
| Replace (i1 i2 : nat) (s : text)
| Append (s : text) (indent : bool)
| Prepend (s : text)
| Off
| On
| Copy (a n : nat).

Definition put_before (s : text) (first : bool) (c : cell) : cell :=
  mkCell (Some (match before c with Some old => if first then s ++ old else old ++ s | None => s end)) (kept c).

Definition change (i : nat) (f : cell -> cell) (l : list cell) : list cell :=
  match skipn i l with c :: r => firstn i l ++ f c :: r | [] => l end.
Definition erase (i1 i2 : nat) (l : list cell) : list cell := firstn i1 l ++ repeat gone (S i2 - i1) ++ skipn (S i2) l.

Definition apply_insert (d : doc) (i : nat) (s : text) (first indent : bool) : option doc :=
  if d_on d then
    if i <=? List.length (d_text d) then
      let s' := if indent then indent_lines (indent_at (d_text d) i) s else s in
      Some (mkDoc (d_text d) (change i (put_before s' first) (d_cells d)) (d_front d) true (d_end d || (i =? List.length (d_text d))))
    else None
  else Some d.

Definition apply_remove (d : doc) (i1 i2 : nat) : option doc :=
  if (i1 <=? i2) && (i2 <? size d) then
    if d_on d then Some (mkDoc (d_text d) (erase i1 i2 (d_cells d)) (d_front d) true (d_end d)) else Some d
  else None.

Definition apply (d : doc) (e : edit) : option doc :=
  match e with
  | Insert i s first indent => apply_insert d i s first indent
  | Remove i1 i2 => apply_remove d i1 i2
  | Replace i1 i2 s => match apply_remove d i1 i2 with Some d' => apply_insert d' i1 s true false | None => None end
  | Append s indent => apply_insert d (List.length (d_text d)) s false indent
  | Prepend s => Some (if d_on d then mkDoc (d_text d) (d_cells d) (s ++ d_front d) true (d_end d) else d)
  | Off => Some (mkDoc (d_text d) (d_cells d) (d_front d) false (d_end d))
  | On => Some (mkDoc (d_text d) (d_cells d) (d_front d) true (d_end d))
  | Copy a n =>
      if (0 <? n) && (a + n <=? List.length (d_text d))
      then Some (mkDoc (firstn n (skipn a (d_text d))) (firstn n (skipn a (d_cells d)) ++ [gone]) [] true false) else None
  end.

Fixpoint apply_all (d : doc) (es : list edit) : option doc :=
  match es with [] => Some d | e :: es' => match apply d e with Some d' => apply_all d' es' | None => None end end.

(** The same edits on the buffer. *)
Definition obey (st : srcbuf) (e : edit) : option srcbuf :=
  match e with
  | Insert i s first indent => insert st i s first indent
  | Remove i1 i2 => remove st i1 i2
  | Replace i1 i2 s => replace st i1 i2 s
  | Append s indent => append st s indent
  | Prepend s => Some (prepend st s)
  | Off => Some (set_write st false)
  | On => Some (set_write st true)
  | Copy a n => copy_from_range st a n
  end.
Fixpoint obey_all (st : srcbuf) (es : list edit) : option srcbuf :=
  match es with [] => Some st | e :: es' => match obey st e with Some st' => obey_all st' es' | None => None end end.

(** Where [dump] shows one blank too many: text was prepended and the last place of the
    buffer shows nothing because it was removed. *)
Definition last_gone (d : doc) : bool :=
  match rev (firstn (size d) (d_cells d)) with mkCell None false :: _ => true | _ => false end.
Definition surplus (d : doc) : text := match d_front d with [] => [] | _ => if last_gone d then [blank] else [] end.

(** For examples: the codes of a string. *)
Fixpoint codes (s : string) : text :=
  match s with EmptyString => [] | String a s' => Z.of_nat (nat_of_ascii a) :: codes s' end.
