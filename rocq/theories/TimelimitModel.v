(** Model of the time limit, /repo/libraries/plumbing/timing.cpp 184-364. *)
From Coq Require Import QArith String.
From Verif Require Import Common SrcbufModel WordsModel CmdargsModel DecimalModel.
Open Scope list_scope.
Open Scope nat_scope.

(** What std::sscanf does with "%u": blanks are skipped, a sign and digits are read.  A number which is
    not the value of an unsigned (also a negative one) leaves the variable undefined ([Beyond]). *)
Inductive scanned : Type := NoNumber | Number (v : Z) (rest : text) | Beyond.
Definition scan_u (s : text) : scanned :=
  let '(neg, s1) := take_sign (skip_space s) in
  let '(v, k, r) := take_digits s1 0%Z 0 in
  if k =? 0 then NoNumber
  else let v := if neg : bool then (- v)%Z else v in
       if ((0 <=? v) && (v <? 2 ^ 32))%Z then Number v r else Beyond.
(** "%u" followed by "<c>%u" for the characters c of [seps]: the numbers which are stored, [None] if one
    of them is undefined. *)
Fixpoint scan_list (s : text) (seps : list Z) : option (list Z) :=
  match scan_u s with
  | NoNumber => Some []
  | Beyond => None
  | Number v r =>
      match seps, r with
      | c :: seps', d :: r' =>
          if (c =? d)%Z then match scan_list r' seps' with Some l => Some (v :: l) | None => None end else Some [v]
      | _, _ => Some [v]
      end
  end.

(** 209-267 setup_timelimit for a text other than "slurm" (for "slurm" the text is the output of a
    program).  [Limit] is the time limit in seconds, [Invalid] the end of the program, [Undefined] a
    number that is too large.  The sum of 246 is below 2^53 and so exact in double precision. *)
Inductive limit : Type := Limit (seconds : Z) | Invalid | Undefined.
Definition setup_timelimit (s : text) : limit :=
  let sum d h m s := Limit (s + 60 * (m + 60 * (h + 24 * d)))%Z in
  match scan_list s [45; 58; 58]%Z with
  | None => Undefined
  | Some [d; h; m; s] => sum d h m s
  | Some _ =>
      match scan_list s [58; 58]%Z with
      | None => Undefined
      | Some [h; m; s] => sum 0%Z h m s
      | Some _ =>
          match scan_list s [58]%Z with
          | None => Undefined
          | Some [m; s] => sum 0%Z 0%Z m s
          | Some _ =>
              match scan_list s [] with
              | None => Undefined
              | Some [s] => sum 0%Z 0%Z 0%Z s
              | Some _ => Invalid
              end
          end
      end
  end.

(** 327-364 time_to_finish; the static variables and the time limit.  Times are in seconds since the
    start of the program (166-175); rounding is not modelled.  A call is given by the time of the call
    and whether the signal has been received. *)
Record clock : Type := mkClock { max_interval : Q; previous_time : Q }.
Definition start_clock : clock := mkClock 0 0.
Definition later (a b : Q) : bool := negb (Qle_bool b a).
Definition time_to_finish (limit : Q) (c : clock) (this_time : Q) (signal : bool) : bool * clock :=
  if signal then (true, c)
  else if Qeq_bool limit 0 then (false, c)
  else
    let interval := (this_time - previous_time c)%Q in
    let m := if later (max_interval c) interval then interval else max_interval c in
    (later (limit - this_time)%Q (m + 120)%Q, mkClock m this_time).
Fixpoint checks (limit : Q) (c : clock) (calls : list (Q * bool)) : list bool :=
  match calls with
  | [] => []
  | (t, s) :: rest => let '(f, c1) := time_to_finish limit c t s in f :: checks limit c1 rest
  end.
