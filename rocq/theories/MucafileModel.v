(** Model of the weight files of /repo/libraries/tools/multicanonical.cpp.  Files are texts; opening
    and closing them and the messages are not modelled. *)
From Coq Require Import QArith String.
From Verif Require Import Common RandomModel SrcbufModel WordsModel CmdargsModel MucaModel DecimalModel.
Open Scope list_scope.
Open Scope nat_scope.

Definition tab : Z := 9.

(** 237-258 write_weight_function: the text written; [None] is an access outside a vector. *)
Fixpoint write_rows (n i : nat) (limits centers weights : list Q) : option text :=
  match n with
  | O => do l <- nth_error limits i; Some (print_e l ++ [newline])
  | S n' =>
      do l <- nth_error limits i;
      do c <- nth_error centers i;
      do w <- nth_error weights i;
      do r <- write_rows n' (S i) limits centers weights;
      Some (print_e l ++ [tab] ++ print_e c ++ [tab] ++ print_e w ++ [newline] ++ r)
  end.
Definition column_line : text := str "OP_bin_limit" ++ [tab] ++ str "OP_value" ++ [tab] ++ str "Weight".
Definition write_weight_function (limits centers weights : list Q) : option text :=
  do r <- write_rows (List.length centers) 0 limits centers weights;
  Some (column_line ++ [newline] ++ r).

(** std::getline until it fails: the lines of a file; a last line need not end with a newline. *)
Fixpoint getlines (s : text) (cur : text) : list text :=
  match s with
  | [] => match cur with [] => [] | _ => [cur] end
  | c :: t => if (c =? newline)%Z then cur :: getlines t [] else getlines t (cur ++ [c])
  end.

(** 150 regex_match with ".*OP_value.*": the dot does not match a carriage return. *)
Definition keyword_line (line : text) : bool :=
  match find line (str "OP_value") 0 with
  | Some _ => negb (existsb (fun c => c =? 13)%Z line)
  | None => false
  end.

(** 149-156 header_length and data_length. *)
Definition count_line (hd : Z * Z) (line : text) : Z * Z :=
  let '(header_length, data_length) := hd in
  let data_length := if keyword_line line then 0%Z else data_length in
  if (data_length <? 0)%Z then (header_length + 1, data_length)%Z else (header_length, data_length + 1)%Z.

(** One "%e" of sscanf into a float: [Some None] is a matching failure, [None] an overflow to
    infinity (not modelled further). *)
Definition scan_float (s : text) : option (option (Q * text)) :=
  match scan_e s with
  | None => Some None
  | Some (x, r) => do y <- to_float x; Some (Some (y, r))
  end.

(** v[i] = x with i of type int. *)
Definition set_at (i : Z) (x : Q) (v : list Q) : option (list Q) :=
  if (0 <=? i)%Z && (i <? Z.of_nat (List.length v))%Z then Some (put (Z.to_nat i) x v) else None.

(** 181-210 the loop over the lines; [Some None] is "return false". *)
Fixpoint read_rows (ls : list text) (count data_length : Z) (limits weights : list Q) : option (option (list Q * list Q)) :=
  match ls with
  | [] => Some (Some (limits, weights))
  | line :: ls' =>
      if ((0 <=? count) && (count <? data_length - 1))%Z then
        do r1 <- scan_float line;
        match r1 with None => Some None | Some (bin_lim, s1) =>
        do r2 <- scan_float (skip_space s1);
        match r2 with None => Some None | Some (centre, s2) =>
        do r3 <- scan_float (skip_space s2);
        match r3 with None => Some None | Some (weight, _) =>
          do limits <- set_at count bin_lim limits;
          do weights <- set_at count weight weights;
          read_rows ls' (count + 1) data_length limits weights
        end end end
      else if (count =? data_length - 1)%Z then
        do r1 <- scan_float line;
        match r1 with None => Some None | Some (bin_lim, _) =>
          do limits <- set_at count bin_lim limits;
          read_rows ls' (count + 1) data_length limits weights
        end
      else read_rows ls' (count + 1) data_length limits weights
  end.

(** 132-222 read_weight_function: limits, centres and weights; [Some None] is "return false", [None]
    the exception from a vector of negative length.  The centres read from the file are overwritten
    with the midpoints (217-219) and are left out. *)
Definition read_weight_function (file : text) : option (option (list Q * list Q * list Q)) :=
  let ls := getlines file [] in
  let '(header_length, data_length) := fold_left count_line ls (1%Z, (-1)%Z) in
  let data_length := (data_length - 1)%Z in
  if (data_length - 1 <? 0)%Z then None
  else
    do r <- read_rows ls (- header_length) data_length (repeat 0%Q (Z.to_nat data_length)) (repeat 0%Q (Z.to_nat (data_length - 1)));
    match r with
    | None => Some None
    | Some (limits, weights) => Some (Some (limits, midpoints limits, weights))
    end.
