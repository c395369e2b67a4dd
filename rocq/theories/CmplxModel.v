(** Model of the class Complex: libraries/datatypes/cmplx.h (line numbers below refer
    to that file).

    The numbers are those of LinalgModel with exact arithmetic.  Where the code divides
    by zero its result is no number: this is the outcome None.  An argument that is a
    reference can refer to the number that is assigned to: it is read when the code
    reads it. *)
From Coq Require Import Bool.
From Verif Require Import LinalgModel.

Section Cmplx.
Context (S : scalars) (root : num S -> num S).
Notation T := (num S).
Notation "a * b" := (mul S a b).
Notation "a + b" := (add S a b).
Notation "a - b" := (sub S a b).
Notation "a / b" := (div S a b).
Notation "- a" := (opp S a).

(** 80-100 Complex: T re, im *)
Record cnum := mkC { cre : T; cim : T }.
Definition set_re (z : cnum) (r : T) : cnum := mkC r (cim z).
Definition set_im (z : cnum) (r : T) : cnum := mkC (cre z) r.

(** 26-38 *)
Definition mul_add (a b c : T) : T := a * b + c.
Definition mul_sub (a b c : T) : T := a * b - c.
(** std::max *)
Definition max (a b : T) : T := if less S a b then b else a.

(** References: to another number, or to the one that is assigned to; to another real
    number, or to a part of it (c.real() and c.imag() are references, 181-192). *)
Inductive cref := Other (w : cnum) | Self.
Inductive rref := OtherR (r : T) | SelfRe | SelfIm.
Definition cread (z : cnum) (a : cref) : cnum := match a with Other w => w | Self => z end.
Definition rread (z : cnum) (a : rref) : T :=
  match a with OtherR r => r | SelfRe => cre z | SelfIm => cim z end.

(** 254-301 squarenorm, abs, conj, dagger; 377 operator- *)
Definition csquarenorm (z : cnum) : T := cre z * cre z + cim z * cim z.
Definition cabs (z : cnum) : T := root (csquarenorm z).
Definition cconj (z : cnum) : cnum := mkC (cre z) (- cim z).
Definition copp (z : cnum) : cnum := mkC (- cre z) (- cim z).

(** 400-409, 425-433: += and -= with a complex and a real number *)
Definition add_assign (z : cnum) (a : cref) : cnum :=
  let z := set_re z (cre z + cre (cread z a)) in
  set_im z (cim z + cim (cread z a)).
Definition add_assign_real (z : cnum) (a : rref) : cnum := set_re z (cre z + rread z a).
Definition sub_assign (z : cnum) (a : cref) : cnum :=
  let z := set_re z (cre z - cre (cread z a)) in
  set_im z (cim z - cim (cread z a)).
Definition sub_assign_real (z : cnum) (a : rref) : cnum := set_re z (cre z - rread z a).
(** 474-479: *= with a complex number; 462-472: the real number is passed by value *)
Definition mul_assign (z : cnum) (a : cref) : cnum :=
  let r := mul_sub (cre z) (cre (cread z a)) (cim z * cim (cread z a)) in
  let z := set_im z (mul_add (cim z) (cre (cread z a)) (cre z * cim (cread z a))) in
  set_re z r.
Definition mul_assign_real (z : cnum) (a : rref) : cnum :=
  let lhs := rread z a in
  let z := set_re z (cre z * lhs) in
  set_im z (cim z * lhs).
(** 506-523: /= with a complex number *)
Definition div_assign (z : cnum) (a : cref) : option cnum :=
  let big := max (absolute S (cre (cread z a))) (absolute S (cim (cread z a))) in
  if is_zero S big then None else
  let m := one S / big in
  let wn := mkC (cre (cread z a) * m) (cim (cread z a) * m) in
  if is_zero S (csquarenorm wn) then None else
  let m := m / csquarenorm wn in
  let r := mul_add (cre z) (cre wn) (cim z * cim wn) * m in
  let z := set_im z (mul_sub (cim z) (cre wn) (cre z * cim wn) * m) in
  Some (set_re z r).
(** 518-521: with a real number, a reference *)
Definition div_assign_real (z : cnum) (a : rref) : option cnum :=
  if is_zero S (rread z a) then None else
  let z := set_re z (cre z / rread z a) in
  if is_zero S (rread z a) then None else
  Some (set_im z (cim z / rread z a)).

(** 544-563 conj_mul and mul_conj *)
Definition conj_mul (a b : cnum) : cnum := mkC (cre a * cre b + cim a * cim b) (cre a * cim b - cim a * cre b).
Definition mul_conj (a b : cnum) : cnum := mkC (cre a * cre b + cim a * cim b) (cim a * cre b - cre a * cim b).

(** 643-742: + and - *)
Definition c_add (a b : cnum) : cnum := mkC (cre a + cre b) (cim a + cim b).
Definition c_add_real (c : cnum) (a : T) : cnum := mkC (cre c + a) (cim c).
Definition c_sub (a b : cnum) : cnum := mkC (cre a - cre b) (cim a - cim b).
Definition c_sub_real (c : cnum) (a : T) : cnum := mkC (cre c - a) (cim c).
Definition real_sub_c (a : T) (c : cnum) : cnum := mkC (a - cre c) (- cim c).
(** 761-803: * *)
Definition c_mul (a b : cnum) : cnum := mkC (cre a * cre b - cim a * cim b) (cre a * cim b + cim a * cre b).
Definition c_mul_real (c : cnum) (a : T) : cnum := mkC (cre c * a) (cim c * a).
(** 829-875: / *)
Definition c_div (a b : cnum) : option cnum :=
  if is_zero S (csquarenorm b) then None else
  let n := one S / csquarenorm b in
  Some (mkC ((cre a * cre b + cim a * cim b) * n) ((cim a * cre b - cre a * cim b) * n)).
Definition c_div_real (c : cnum) (a : T) : option cnum :=
  if is_zero S a then None else Some (mkC (cre c / a) (cim c / a)).
Definition real_div_c (a : T) (c : cnum) : option cnum :=
  let n := csquarenorm c in
  if is_zero S n then None else Some (mkC ((a * cre c) / n) (- (a * cim c) / n)).
(** 890-911: == *)
Definition c_eq (a b : cnum) : bool := is_zero S (cre a - cre b) && is_zero S (cim a - cim b).
Definition c_eq_real (a : cnum) (b : T) : bool := is_zero S (cre a - b) && is_zero S (cim a).
(** 1163-1175: an imaginary number times a complex number *)
Definition imag_mul (i : T) (c : cnum) : cnum := mkC (- cim c * i) (cre c * i).
End Cmplx.
