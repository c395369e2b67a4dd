(** Complex numbers (C99). *)
Set Warnings "-notation-overridden,-ambiguous-paths".
From mathcomp Require Import all_ssreflect all_algebra.
From Verif Require Import FieldTac LinalgModel LinalgSpec CmplxModel CmplxSpec CmplxProofs1 CmplxProofs2.
Set Implicit Arguments.
Unset Strict Implicit.
Unset Printing Implicit Defensive.
Import Order.TTheory GRing.Theory Num.Theory.
Local Open Scope ring_scope.

Section Props.
Variables (C : numClosedFieldType) (f : C -> C) (u : C).
Notation S := (field_scalars f u).
Notation RT := (mc_ring C).
Implicit Types (z w : cnum S) (r : C).

(** The operators give the sum, the difference and the product. *)
Theorem C99_operators z w r : parts_real z -> parts_real w -> r \is Num.real ->
  [/\ is_number (c_add S z w) (cvalue z + cvalue w),
      is_number (c_sub S z w) (cvalue z - cvalue w) &
      is_number (c_mul S z w) (cvalue z * cvalue w)] /\
  [/\ is_number (c_add_real S z r) (cvalue z + r), is_number (c_sub_real S z r) (cvalue z - r),
      is_number (real_sub_c S r z) (r - cvalue z) & is_number (c_mul_real S z r) (cvalue z * r)] /\
  is_number (copp S z) (- cvalue z) /\ is_number (imag_mul S r z) (('i * r) * cvalue z).
Proof.
case: z w=> [a b] [c d] [/= ha hb] [/= hc hd] hr.
do !split; rewrite /cvalue /= ?rpredD ?rpredB ?rpredN ?rpredM ?rpredN //.
- exact: (p_add RT).
- exact: (p_sub RT).
- exact: (p_mul RT (iI C)).
- exact: (p_addr RT).
- exact: (p_subr RT).
- exact: (p_rsub RT).
- exact: (p_scale RT).
- exact: (p_opp RT).
- exact: (p_imag RT (iI C)).
Qed.

(** The conjugate, the products with it, the square of the absolute value and the
    absolute value. *)
Theorem C99_conjugate z w : parts_real z -> parts_real w ->
  [/\ is_number (cconj S z) (cvalue z)^*, is_number (conj_mul S z w) ((cvalue z)^* * cvalue w),
      is_number (mul_conj S z w) (cvalue z * (cvalue w)^*), csquarenorm S z = `|cvalue z| ^+ 2 :> C &
      cabs S (fun x : C => sqrtC x) z = `|cvalue z| :> C].
Proof.
case: z w=> [a b] [c d] [/= ha hb] [/= hc hd].
have cj x y : x \is Num.real -> y \is Num.real -> (x + 'i * y)^* = x - 'i * y :> C.
  by move=> hx hy; rewrite rmorphD rmorphM /= conjCi !(CrealP _) // mulNr.
have nn : a * a + b * b = `|a + 'i * b| ^+ 2 by rewrite normC2_rect // !expr2.
split; rewrite /is_number /parts_real /cabs /csquarenorm /cvalue /=.
- by rewrite rpredN ha hb cj // mulrN.
- by rewrite rpredD ?rpredB ?rpredN ?rpredM ?rpredN ?rpredM // cj //; split=> //; exact: (p_conj_mul RT (iI C)).
- by rewrite rpredD ?rpredB ?rpredN ?rpredM ?rpredN ?rpredM // cj //; split=> //; exact: (p_mul_conj RT (iI C)).
- exact: nn.
- by rewrite nn sqrCK.
Qed.

(** Division: there is a result if and only if the divisor is not zero, and it is the
    quotient. *)
Theorem C99_division z w r : parts_real z -> parts_real w -> r \is Num.real ->
  [/\ is_quotient (c_div S z w) (cvalue w) (cvalue z / cvalue w),
      is_quotient (c_div_real S z r) r (cvalue z / r) &
      is_quotient (real_div_c S r w) (cvalue w) (r / cvalue w)].
Proof.
case: z w=> [a b] [c d] [/= ha hb] [/= hc hd] hr.
have rn : (c * c + d * d)^-1 \is Num.real by rewrite rpredV rpredD ?rpredM.
rewrite /is_quotient /c_div /c_div_real /real_div_c /csquarenorm /cvalue /= zero_norm //; split.
- case: ifP=> [->//|/negbT w0]; rewrite (negbTE w0); eexists; first by [].
  apply: number; rewrite /= ?div1r ?rpredM ?rpredD ?rpredB ?rpredN ?rpredM ?rpredN ?rpredM //.
  exact: (quotient a b hc hd w0 (erefl _)).
- case: ifP=> [->//|/negbT r0]; rewrite (negbTE r0); eexists; first by [].
  apply: number; rewrite /= ?rpredM ?rpredV //; exact: (p_scale RT).
- case: ifP=> [->//|/negbT w0]; rewrite (negbTE w0); eexists; first by [].
  apply: number; rewrite /= ?rpredM ?rpredN ?rpredM //; exact: (quotient3 r hc hd w0 (erefl _)).
Qed.

(** The assigning operators with a complex number, that can be the one that is assigned
    to (z += z, z *= z, z /= z). *)
Theorem C99_assign z (a : cref S) : parts_real z -> cref_real a ->
  [/\ is_number (add_assign S z a) (cvalue z + cref_value z a),
      is_number (sub_assign S z a) (cvalue z - cref_value z a),
      is_number (mul_assign S z a) (cvalue z * cref_value z a) &
      is_quotient (div_assign S z a) (cref_value z a) (cvalue z / cref_value z a)].
Proof.
move=> hz ha.
have [w [hw ew]] : exists w, parts_real w /\ (cread S z a = w /\ cref_value z a = cvalue w).
  by case: a ha=> [w|] h; [exists w | exists z].
case: ew=> er ->.
have -> : div_assign S z a = div_assign S z (Other S w) by rewrite /div_assign er.
have -> : mul_assign S z a = mul_assign S z (Other S w) by rewrite /mul_assign er.
have -> : add_assign S z a = add_assign S z (Other S w).
  by case: a ha er=> [w'|] _ /= <-.
have -> : sub_assign S z a = sub_assign S z (Other S w).
  by case: a ha er=> [w'|] _ /= <-.
case: z w hz hw {er ha}=> [p q] [c d] [/= hp hq] [/= hc hd].
split.
- by apply: number; rewrite /= ?rpredD //; exact: (p_add RT).
- by apply: number; rewrite /= ?rpredB //; exact: (p_sub RT).
- by apply: number; rewrite /= /mul_add /mul_sub /= ?rpredB ?rpredD ?rpredM //; exact: (p_mul2 RT (iI C)).
- rewrite /is_quotient /div_assign /csquarenorm /cvalue.
  cbn [is_zero cread cre cim absolute one div mul add field_scalars].
  rewrite max_zero // zero_norm //; case: ifP=> [->//|/negbT w0]; rewrite (negbTE w0).
  have m0 : (1 / max S `|c| `|d| : C) != 0.
    by rewrite div1r invr_eq0 max_zero // zero_norm.
  have rm : (1 / max S `|c| `|d| : C) \is Num.real by rewrite div1r rpredV real_max.
  move: (1 / max S `|c| `|d| : C) m0 rm => m m0 rm.
  rewrite (p_scaled RT) mulf_eq0 zero_norm // (negbTE w0) mulf_eq0 (negbTE m0) /=.
  eexists; first by [].
  rewrite -(p_scaled RT).
  apply: number; rewrite /= /mul_add /mul_sub /= ?rpredM ?rpredV ?rpredD ?rpredB ?rpredN ?rpredM ?rpredN ?rpredM //.
  exact: (quotient2 p q hc hd w0 m0).
Qed.

(** The assigning operators with a real number, that can be a part of the number that is
    assigned to; the division if it is not its real part. *)
Theorem C99_assign_real z (a : rref S) : parts_real z -> rref_real a ->
  [/\ is_number (add_assign_real S z a) (cvalue z + rref_value z a),
      is_number (sub_assign_real S z a) (cvalue z - rref_value z a),
      is_number (mul_assign_real S z a) (cvalue z * rref_value z a) &
      a <> SelfRe S -> is_quotient (div_assign_real S z a) (rref_value z a) (cvalue z / rref_value z a)].
Proof.
case: z=> [p q] [/= hp hq] ha.
have hr : rref_value (mkC S p q) a \is Num.real by case: a ha.
have er : rread S (mkC S p q) a = rref_value (mkC S p q) a by case: a ha {hr}.
split.
- rewrite /add_assign_real er; apply: number; rewrite /= ?rpredD //; exact: (p_addr RT).
- rewrite /sub_assign_real er; apply: number; rewrite /= ?rpredB //; exact: (p_subr RT).
- rewrite /mul_assign_real er; apply: number; rewrite /= ?rpredM //; exact: (p_scale RT).
- move=> ne; rewrite /is_quotient /div_assign_real.
  have -> x : rread S (set_re S (mkC S p q) x) a = rread S (mkC S p q) a by case: a ne {ha hr er}.
  rewrite er; cbn [is_zero field_scalars]; case: ifP=> [->//|/negbT r0]; rewrite (negbTE r0).
  eexists; first by [].
  apply: number; rewrite /= ?rpredM ?rpredV //; exact: (p_scale RT).
Qed.

(** z /= z.real() is not the quotient: the real part is 1 when the imaginary part is
    divided by it.  It is the quotient only for a real number or if the real part is 1. *)
Theorem C99_div_real_refuted z : parts_real z -> (cre S z : C) != 0 ->
  exists2 w, div_assign_real S z (SelfRe S) = Some w &
    (cvalue w == cvalue z / (cre S z : C)) = ((cim S z : C) == 0) || ((cre S z : C) == 1).
Proof.
case: z=> [p q] [/= hp hq] p0.
exists (mkC S 1 q).
  rewrite /div_assign_real /= (negbTE p0) divff // oner_eq0.
  by rewrite /set_im /= divr1.
rewrite /cvalue /= mulrDl divff // -mulrA (inj_eq (addrI _)) (inj_eq (mulfI (neq0Ci C))).
case: (eqVneq q 0)=> [->|q0]; first by rewrite mul0r eqxx.
rewrite -{1}(mulr1 q) (inj_eq (mulfI q0)) /=.
by rewrite eq_sym; exact: invr_eq1.
Qed.

(** Equality is equality of the numbers. *)
Theorem C99_compare z w r : parts_real z -> parts_real w -> r \is Num.real ->
  c_eq S z w = (cvalue z == cvalue w) /\ c_eq_real S z r = (cvalue z == r).
Proof.
case: z w=> [a b] [c d] [/= ha hb] [/= hc hd] hr; rewrite /c_eq /c_eq_real /cvalue /=; split.
  by rewrite compare.
by have := compare ha hb hr (rpred0 _); rewrite mulr0 addr0 subr0 => ->.
Qed.

(** 3 + 4 i and its absolute value, its square by z *= z, its quotient by itself, and
    z /= z.real() for 2 + 2 i, that is 1 + 2 i and not 1 + i. *)
Example C99_example :
  let z := mkC S (3%:R : C) (4%:R : C) in
  let v := mkC S (2%:R : C) (2%:R : C) in
  [/\ parts_real z /\ parts_real v, cabs S (fun x : C => sqrtC x) z = 5%:R :> C,
      cvalue (mul_assign S z (Self S)) = - 7%:R + 'i * 24%:R,
      exists2 w, div_assign S z (Self S) = Some w & cvalue w = 1 &
      exists2 w, div_assign_real S v (SelfRe S) = Some w & cvalue w != cvalue v / 2%:R].
Proof.
move=> z v.
have hz : parts_real z by split; rewrite /= realn.
have hv : parts_real v by split; rewrite /= realn.
split=> //.
- rewrite /cabs /csquarenorm /= -!natrM -natrD (_ : (3 * 3 + 4 * 4)%N = (5 ^ 2)%N) // natrX sqrCK //.
  exact: ler0n.
- rewrite /cvalue /mul_assign /= /mul_add /mul_sub /= -!natrM -natrD; congr (_ + _).
  by rewrite (_ : (4 * 4)%N = (7 + 3 * 3)%N) // natrD opprD addrCA subrr addr0.
- have [_ _ _] := C99_assign hz (a := Self S) Logic.I.
  have z0 : cvalue z != 0.
    by rewrite /cvalue /= -zero_norm ?realn // -!natrM -natrD pnatr_eq0.
  by rewrite /is_quotient /= (negbTE z0) => -[w -> [_ ew]]; exists w; rewrite // ew divff.
- have v0 : (cre S v : C) != 0 by rewrite /= pnatr_eq0.
  case: (C99_div_real_refuted hv v0)=> w -> e; exists w => //; rewrite [_ == _]e /=.
  by rewrite pnatr_eq0 (eqr_nat _ 2 1).
Qed.
End Props.

Print Assumptions C99_operators.
Print Assumptions C99_conjugate.
Print Assumptions C99_division.
Print Assumptions C99_assign.
Print Assumptions C99_assign_real.
Print Assumptions C99_div_real_refuted.
Print Assumptions C99_compare.
