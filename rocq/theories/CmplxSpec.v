(** What is said of complex numbers. *)
Set Warnings "-notation-overridden,-ambiguous-paths".
From mathcomp Require Import all_ssreflect all_algebra.
From Verif Require Import LinalgModel LinalgSpec CmplxModel.
Set Implicit Arguments.
Unset Strict Implicit.
Unset Printing Implicit Defensive.
Import Num.Theory.
Local Open Scope ring_scope.

Section Spec.
Variables (C : numClosedFieldType) (f : C -> C) (u : C).
Notation S := (field_scalars f u).

(** The complex number re + i im, with real parts. *)
Definition cvalue (z : cnum S) : C := (cre S z : C) + 'i * (cim S z : C).
Definition parts_real (z : cnum S) : Prop := (cre S z : C) \is Num.real /\ (cim S z : C) \is Num.real.
(** z is the result x, and has real parts. *)
Definition is_number (z : cnum S) (x : C) : Prop := parts_real z /\ cvalue z = x.
(** There is a result if and only if the divisor is not zero; it is x. *)
Definition is_quotient (r : option (cnum S)) (divisor x : C) : Prop :=
  if divisor == 0 then r = None else exists2 z, r = Some z & is_number z x.

(** What a reference refers to. *)
Definition cref_value (z : cnum S) (a : cref S) : C := match a with Other w => cvalue w | Self => cvalue z end.
Definition rref_value (z : cnum S) (a : rref S) : C :=
  match a with OtherR r => r | SelfRe => cre S z | SelfIm => cim S z end.
Definition cref_real (a : cref S) : Prop := match a with Other w => parts_real w | Self => True end.
Definition rref_real (a : rref S) : Prop := match a with OtherR r => (r : C) \is Num.real | _ => True end.
End Spec.
