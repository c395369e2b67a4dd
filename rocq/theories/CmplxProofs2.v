(** The operations of complex numbers. *)
Set Warnings "-notation-overridden,-ambiguous-paths".
From mathcomp Require Import all_ssreflect all_algebra.
From Verif Require Import FieldTac LinalgModel LinalgSpec CmplxModel CmplxSpec CmplxProofs1.
Set Implicit Arguments.
Unset Strict Implicit.
Unset Printing Implicit Defensive.
Import Order.TTheory GRing.Theory Num.Theory.
Local Open Scope ring_scope.

Section Proofs.
Variables (C : numClosedFieldType) (f : C -> C) (u : C).
Notation S := (field_scalars f u).
Notation RT := (mc_ring C).
Implicit Types a b c d : C.

Lemma iI : 'i * 'i = - 1 :> C.
Proof. by rewrite -expr2 sqrCi. Qed.

Lemma number a b x : a \is Num.real -> b \is Num.real -> a + 'i * b = x -> is_number (mkC S a b) x.
Proof. by move=> ha hb e; split. Qed.

Lemma zero_norm c d : c \is Num.real -> d \is Num.real -> (c * c + d * d == 0) = (c + 'i * d == 0).
Proof.
move=> hc hd; apply/eqP/eqP=> [e|e].
- have: `|c + 'i * d| ^+ 2 = 0 by rewrite normC2_rect // !expr2.
  by move/eqP; rewrite expf_eq0 /= normr_eq0 => /eqP.
- by rewrite -(p_norm RT iI) e mul0r.
Qed.

Lemma max_zero c d : c \is Num.real -> d \is Num.real ->
  ((max S `|c| `|d| : C) == 0) = (c * c + d * d == 0).
Proof.
move=> hc hd; have e (x : C) : x \is Num.real -> x * x = `|x| ^+ 2 by move=> hx; rewrite real_normK.
rewrite /max /= (e c hc) (e d hd) paddr_eq0 ?exprn_ge0 // !expf_eq0 /=.
case: ifP=> [lt|/negbT]; last first.
  rewrite -real_leNgt ?normr_real // => le.
  case: (eqVneq `|c| 0)=> [c0|//]; move: le; rewrite c0 => le /=.
  by apply/esym; rewrite eq_le le normr_ge0.
have d0: 0 < `|d| by apply: le_lt_trans lt.
by rewrite (gt_eqF d0) andbF.
Qed.

Lemma real_max c d : (max S `|c| `|d| : C) \is Num.real.
Proof. by rewrite /max /=; case: ifP=> _; exact: normr_real. Qed.

Lemma quotient a b c d n : c \is Num.real -> d \is Num.real -> c + 'i * d != 0 -> n = (c * c + d * d)^-1 ->
  (a * c + b * d) * n + 'i * ((b * c - a * d) * n) = (a + 'i * b) / (c + 'i * d).
Proof.
move=> hc hd w0 ->; apply: (mulIf w0); rewrite (p_div RT iI) divfK // mulfV ?mulr1 //.
by rewrite zero_norm.
Qed.

Lemma quotient2 a b c d m : c \is Num.real -> d \is Num.real -> c + 'i * d != 0 -> m != 0 ->
  let n := m / ((c * m) * (c * m) + (d * m) * (d * m)) in
  (a * (c * m) + b * (d * m)) * n + 'i * ((b * (c * m) - a * (d * m)) * n) = (a + 'i * b) / (c + 'i * d).
Proof.
move=> hc hd w0 m0 n; apply: (mulIf w0); rewrite (p_div2 RT iI) divfK //.
have -> : (c * c + d * d) * (m * n) = 1; last by rewrite mulr1.
rewrite /n (p_scaled RT) mulrA mulrA -(mulrA _ m m) mulfV //.
by rewrite mulf_neq0 ?zero_norm // mulf_neq0.
Qed.

Lemma quotient3 a c d n : c \is Num.real -> d \is Num.real -> c + 'i * d != 0 -> n = (c * c + d * d)^-1 ->
  (a * c) * n + 'i * (- (a * d) * n) = a / (c + 'i * d).
Proof.
move=> hc hd w0 ->; apply: (mulIf w0); rewrite (p_rdiv RT iI) divfK // mulfV ?mulr1 //.
by rewrite zero_norm.
Qed.

Lemma compare a b c d : a \is Num.real -> b \is Num.real -> c \is Num.real -> d \is Num.real ->
  (a + 'i * b == c + 'i * d) = (a - c == 0) && (b - d == 0).
Proof.
move=> ha hb hc hd; rewrite -subr_eq0.
have -> : a + 'i * b - (c + 'i * d) = (a - c) + 'i * (b - d) by rewrite (p_sub RT).
rewrite -zero_norm ?rpredB // -!expr2 -(real_normK (rpredB ha hc)) -(real_normK (rpredB hb hd)).
by rewrite paddr_eq0 ?exprn_ge0 // !expf_eq0 /= !normr_eq0.
Qed.
End Proofs.
