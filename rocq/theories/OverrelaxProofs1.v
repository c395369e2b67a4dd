(** Elements of SU(2) subgroups. *)
Set Warnings "-notation-overridden,-ambiguous-paths".
From mathcomp Require Import all_ssreflect all_algebra.
From Verif Require Import FieldTac LinalgModel LinalgSpec LinalgProofs1 LinalgProofs4 MatrixModel MatrixSpec MatrixProofs1 EigenSpec EigenProofs1
  EigenProofs2 SuModel SuSpec SuProofs2 AlgebraModel AlgebraSpec AlgebraProofs3 AlgebraProofs4 AlgebraProofs5 Su2Model Su2Spec Su2Proofs1 Su2Proofs2 Su2Proofs3
  OverrelaxModel.
Set Implicit Arguments.
Unset Strict Implicit.
Unset Printing Implicit Defensive.
Import Order.TTheory GRing.Theory Num.Theory.
Local Open Scope ring_scope.

Section Det.
Variable F : comUnitRingType.

Lemma sylvester n m (C : 'M[F]_(n, m)) (Y : 'M[F]_(m, n)) : \det (1%:M + C *m Y) = \det (1%:M + Y *m C).
Proof.
have e1 : block_mx 1%:M (- C) Y 1%:M = block_mx 1%:M 0 Y 1%:M *m block_mx 1%:M (- C) 0 (1%:M + Y *m C).
  by rewrite mulmx_block !mul1mx ?mul0mx ?mulmx0 !mulmx1 ?addr0 ?add0r mulmxN addrCA addNr addr0.
have e2 : block_mx 1%:M (- C) Y 1%:M = block_mx 1%:M (- C) 0 1%:M *m block_mx (1%:M + C *m Y) 0 Y 1%:M.
  by rewrite mulmx_block !mul1mx ?mul0mx ?mulmx0 !mulmx1 ?addr0 ?add0r mulNmx addrK.
have := e1; rewrite e2 => /(congr1 determinant); rewrite !det_mulmx !det_ublock !det_lblock !matrix.det1.
by rewrite !mul1r !mulr1.
Qed.

Lemma det_embed2 n p q (X : nat -> nat -> F) : (p < n)%N -> (q < n)%N -> p != q ->
  \det (embed2 n p q X) = \det (mxr 2 2 X).
Proof.
move=> pn qn pq; pose C : 'M[F]_(n, 2) := \matrix_(i, j) ((i == (if j == 0 then p else q) :> nat)%:R).
have qp : (q == p) = false by rewrite eq_sym (negbTE pq).
have cc : C^T *m C = 1%:M.
  apply/matrixP => i j; rewrite !mxE.
  pose s (i : 'I_2) : 'I_n := if i == 0 then Ordinal pn else Ordinal qn.
  rewrite (bigD1 (s i)) //= big1 => [|k ki]; rewrite !mxE.
    rewrite /s; case: i j => [[|[|i]] hi] [[|[|j]] hj] //=; rewrite ?eqxx ?qp ?(negbTE pq) /=; rewrite ?mulr1 ?mulr0 ?addr0 //.
  have -> : (k == (if i == 0 then p else q) :> nat) = false.
    by apply: negbTE; apply: contra ki; rewrite /s; case: ifP.
  by rewrite mul0r.
have -> : embed2 n p q X = 1%:M + C *m ((mxr 2 2 X - 1%:M) *m C^T).
  apply/matrixP => i j; rewrite !mxE big_ord_recl big_ord1 (_ : lift ord0 ord0 = 1); last exact: val_inj.
  rewrite !mxE !big_ord_recl !big_ord0 (_ : lift ord0 ord0 = 1); last exact: val_inj.
  rewrite !mxE /= !addr0 ?subr0 -val_eqE /=.
  case: (i == p :> nat) / eqP => [->|ip].
    rewrite [p == j]eq_sym (negbTE pq) mul0r addr0 mul1r.
    case: (j == p :> nat) / eqP => [->|jp]; rewrite ?(negbTE pq) /= ?mulr1 ?mulr0 ?addr0 ?add0r ?subr0; first by rewrite addrC subrK.
    by case: eqP; rewrite /= ?mulr1 ?mulr0.
  case: (i == q :> nat) / eqP => [->|iq].
    rewrite [q == j]eq_sym mul0r add0r mul1r.
    case: (j == p :> nat) / eqP => [->|jp]; rewrite ?(negbTE pq) /= ?mulr1 ?mulr0 ?addr0 ?add0r ?subr0 //.
    by case: eqP; rewrite /= ?mulr1 ?mulr0 ?addr0 ?add0r // addrC subrK.
  by rewrite !mul0r !addr0.
by rewrite sylvester -mulmxA cc mulmx1 addrC subrK.
Qed.
End Det.

Section Group.
Variables (F : numFieldType) (f : F -> F) (u : F) (cj : {rmorphism F -> F}) (re im root : F -> F) (I : F).
Hypothesis P : complex_parts cj re im root I.
Notation FS := (field_scalars f u).
Notation M q := (mxr 2 2 (su2_matrix FS I q)).

Lemma specialM n (U V : 'M[F]_n) : special_unitary cj U -> special_unitary cj V -> special_unitary cj (U *m V).
Proof. by move=> [uU dU] [uV dV]; split; [exact: unitaryM|rewrite det_mulmx dU dV mulr1]. Qed.

Lemma special1 n : special_unitary cj (1%:M : 'M[F]_n).
Proof. by split; [exact: unitary1|rewrite matrix.det1]. Qed.

Lemma special_adjoint n (U : 'M[F]_n) : special_unitary cj U -> special_unitary cj (adjoint cj U).
Proof.
case: P => C _ _ [uU dU]; split; last by rewrite det_adjoint dU rmorph1.
by rewrite /unitary (adjointK C) (unitary_r uU).
Qed.

Lemma special_embed n p q (V : su2 FS) : (p < n)%N -> (q < n)%N -> p != q -> real_su2 V -> su2_det FS V = 1 ->
  special_unitary cj (embed2 n p q (su2_matrix FS I V)).
Proof.
move=> pn qn pq rV dV; split; last by rewrite det_embed2 // (M_det P).
apply: embed2_unitary => // i j i2 j2.
have [uV _] := (su2_special P rV).2 dV.
move: uV => /matrixP /(_ (Ordinal i2) (Ordinal j2)); rewrite !mxE big_ord_recl big_ord1 !mxE.
by rewrite -val_eqE /= => <-.
Qed.

Lemma su2_scaled V : real_su2 V -> su2_det FS V != 0 ->
  let r := root (su2_det FS V) in
  [/\ 0 < r, r * r = su2_det FS V, real_su2 (su2_normalize FS root V) & su2_det FS (su2_normalize FS root V) = 1].
Proof.
move=> rV d0 r; have [rn _ sp r0] := su2_normal P rV d0.
split=> //; last exact/(su2_special P rn).
by case: P => C _ _; rewrite /r -expr2 (rootK C) // det_ge0.
Qed.

End Group.
