(** Printing and scanning of floating point numbers by the C library, as far as the text files of
    HILA need it: "%e" in printf and in scanf (into a float).  This is library behaviour, not code of
    the repository; it is used in /repo/libraries/tools/multicanonical.cpp 186-200 and 249-253. *)
From Coq Require Import QArith Qround String.
From Verif Require Import Common SrcbufModel WordsModel CmdargsModel MucaModel.
Open Scope list_scope.
Open Scope nat_scope.

Definition qpow (b e : Z) : Q := Qpower (inject_Z b) e.

(** The exponent e with b^e <= x < b^(e+1), for x > 0. *)
Fixpoint expo_up (b : Z) (n : nat) (e : Z) (x : Q) : Z :=
  match n with O => e | S n' => if qle (qpow b (e + 1)) x then expo_up b n' (e + 1)%Z x else e end.
Fixpoint expo_down (b : Z) (n : nat) (e : Z) (x : Q) : Z :=
  match n with O => e | S n' => if qle (qpow b e) x then e else expo_down b n' (e - 1)%Z x end.
Definition expo (b : Z) (x : Q) : Z :=
  if qle 1 x then expo_up b (Z.to_nat (Z.log2 (Qnum x))) 0 x
  else expo_down b (Z.to_nat (Z.log2 (Zpos (Qden x)))) (-1) x.

(** Rounding to the nearest integer, to even in a tie (the default rounding mode). *)
Definition nearest_int (y : Q) : Z :=
  let f := Qfloor y in
  let r := (y - inject_Z f)%Q in
  if qlt r (1 # 2) then f
  else if qlt (1 # 2) r then (f + 1)%Z
  else if Z.even f then f else (f + 1)%Z.

Definition qabs (x : Q) : Q := if qlt x 0 then (- x)%Q else x.

(** [k] decimal digits of [n], most significant first. *)
Fixpoint digits (k : nat) (n : Z) : text :=
  match k with O => [] | S k' => digits k' (n / 10)%Z ++ [48 + n mod 10]%Z end.

(** printf "%e": one digit, the point, six digits, e, sign and at least two digits of the exponent
    (three suffice for a double). *)
Definition print_e (x : Q) : text :=
  let body :=
    if Qeq_bool x 0 then str "0.000000e+00"
    else
      let a := qabs x in
      let e := expo 10 a in
      let m := nearest_int (a * qpow 10 (6 - e))%Q in
      let '(m, e) := (if (m =? 10000000)%Z then (1000000%Z, (e + 1)%Z) else (m, e)) in
      digits 1 (m / 1000000) ++ str "." ++ digits 6 (m mod 1000000) ++ str "e" ++
      (if (e <? 0)%Z then str "-" else str "+") ++ digits (if (Z.abs e <? 100)%Z then 2 else 3) (Z.abs e) in
  if qlt x 0 then str "-" ++ body else body.

(** A run of digits: its value after [v], its length and the rest. *)
Fixpoint take_digits (s : text) (v : Z) (k : nat) : Z * nat * text :=
  match s with
  | c :: t => if isdigit c then take_digits t (v * 10 + (c - 48))%Z (S k) else (v, k, s)
  | [] => (v, k, [])
  end.
Definition take_sign (s : text) : bool * text :=
  match s with
  | c :: t => if (c =? 45)%Z then (true, t) else if (c =? 43)%Z then (false, t) else (false, s)
  | [] => (false, s)
  end.

(** scanf "%e": the decimal number at the start, before rounding, and the rest; [None] is a matching
    failure.  Infinity, NaN and hexadecimal numbers are not modelled. *)
Definition scan_e (s : text) : option (Q * text) :=
  let '(neg, s) := take_sign (skip_space s) in
  let '(v, k1, s) := take_digits s 0 0 in
  let '(v, k2, s) := match s with c :: t => if (c =? 46)%Z then take_digits t v 0 else (v, 0, s) | [] => (v, 0, s) end in
  if k1 + k2 =? 0 then None
  else
    do r <- match s with
            | c :: t =>
                if (c =? 101)%Z || (c =? 69)%Z then
                  let '(eneg, t) := take_sign t in
                  let '(e, k, t) := take_digits t 0 0 in
                  if k =? 0 then None else Some (if eneg then (- e)%Z else e, t)
                else Some (0%Z, s)
            | [] => Some (0%Z, s)
            end;
    let x := (inject_Z v * qpow 10 (fst r - Z.of_nat k2))%Q in
    Some (if neg then (- x)%Q else x, snd r).

(** The nearest float (24 binary digits, least exponent -149); [None] is an overflow to infinity. *)
Definition to_float (x : Q) : option Q :=
  if Qeq_bool x 0 then Some 0%Q
  else
    let a := qabs x in
    let u := Z.max (expo 2 a - 23) (-149) in
    let r := (inject_Z (nearest_int (a * qpow 2 (- u))) * qpow 2 u)%Q in
    if qle (qpow 2 128) r then None
    else Some (if qlt x 0 then (- r)%Q else r).
