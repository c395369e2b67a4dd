(** Rotations in two rows or columns. *)
Set Warnings "-notation-overridden,-ambiguous-paths".
From mathcomp Require Import all_ssreflect all_algebra all_fingroup.
From Coq Require Import Ring Field.
From Verif Require Import LinalgModel LinalgSpec LinalgProofs1 LinalgProofs3 LinalgProofs4
  FieldTac MatrixModel MatrixSpec MatrixProofs1 SortModel EigenModel EigenSpec.
Set Implicit Arguments.
Unset Strict Implicit.
Unset Printing Implicit Defensive.
Import Order.TTheory GRing.Theory Num.Theory.
Local Open Scope ring_scope.

Local Arguments MatrixModel.of_nat : simpl never.

Section Numbers.
Variables (F : numFieldType) (cj : {rmorphism F -> F}) (re root : F -> F).
Hypothesis C : complex_numbers cj re root.

Lemma cj_norm : forall x, x * cj x = `|x| ^+ 2. Proof. by case: C. Qed.

Lemma cj_ge0 : forall x, 0 <= x -> cj x = x.
Proof.
move=> x x0; case: (x =P 0) => [->|/eqP nx]; first by rewrite rmorph0.
by apply: (mulfI nx); rewrite cj_norm ger0_norm // expr2.
Qed.

Lemma cj_real : forall x, x \is Num.real -> cj x = x.
Proof.
move=> x; rewrite realE => /orP [x0|x0]; first exact: cj_ge0.
by rewrite -[x]opprK rmorphN cj_ge0 ?oppr_ge0.
Qed.

Lemma cjK : forall x, cj (cj x) = x.
Proof.
move=> x; case: (x =P 0) => [->|/eqP nx]; first by rewrite !rmorph0.
have nc : cj x != 0 by rewrite fmorph_eq0.
have E := congr1 cj (cj_norm x).
by apply: (mulfI nc); rewrite -(rmorphM cj) E [RHS]mulrC cj_norm cj_ge0 // exprn_ge0.
Qed.

Lemma norm_cj : forall x, `|cj x| = `|x|.
Proof.
move=> x; have : `|cj x| ^+ 2 = `|x| ^+ 2 by rewrite -!cj_norm cjK mulrC.
by move/eqP; rewrite eqr_expn2 ?normr_ge0 // => /eqP.
Qed.

Lemma real_cj : forall x, cj x = x -> x \is Num.real.
Proof.
move=> x E; have := cj_norm x; rewrite E -expr2 => /eqP.
rewrite eq_sym -subr_eq0 subr_sqr mulf_eq0 subr_eq0 addr_eq0 realE => /orP [/eqP <-|].
  by rewrite normr_ge0.
by rewrite -eqr_oppLR => /eqP <-; rewrite oppr_le0 normr_ge0 orbT.
Qed.

Lemma re_fix : forall x, cj x = x -> re x = x.
Proof.
case: C => _ R _ x E; rewrite R E -mulr2n -[x *+ 2]mulr_natr mulfK //.
by rewrite pnatr_eq0.
Qed.

Lemma re_real : forall x, re x \is Num.real.
Proof.
case: C => _ R _ x; apply: real_cj; rewrite R rmorphM rmorphD cjK addrC.
by rewrite [cj 2%:R^-1]cj_ge0 // invr_ge0 ler0n.
Qed.

Lemma root_ge0 : forall x, 0 <= x -> 0 <= root x. Proof. by case: C => _ _ R x /R []. Qed.
Lemma rootK : forall x, 0 <= x -> root x ^+ 2 = x. Proof. by case: C => _ _ R x /R []. Qed.
Lemma root_sqr : forall x, 0 <= x -> root (x ^+ 2) = x.
Proof.
move=> x x0; have x2 : 0 <= x ^+ 2 by rewrite exprn_ge0.
by apply/eqP; rewrite -(@eqr_expn2 _ 2) ?root_ge0 // rootK.
Qed.
Lemma root_gt0 : forall x, 0 < x -> 0 < root x.
Proof.
move=> x x0; rewrite lt0r root_ge0 ?ltW // andbT.
by apply/eqP => E; have := rootK (ltW x0); rewrite E expr0n /= => /eqP; rewrite lt_eqF.
Qed.

End Numbers.

Section Rotation.
Variables (F : numFieldType) (f : F -> F) (u : F) (cj : {rmorphism F -> F}) (re root stale : F -> F) (eps : F).
Notation S := (field_scalars f u).
Hypothesis C : complex_numbers cj re root.

(** The matrix of a GivensMatrix. *)
Definition gmat (P : givens S) : nat -> nat -> F := fun i j =>
  if i == 0%N then if j == 0%N then gc P else gs P
  else if j == 0%N then - cj (gs P) else gc P.

Lemma givens_left : forall m P M p q r c, p != q ->
  mult_by_Givens_left S cj m P M p q r c = mult_by_2x2_left S m p q (gmat P) M r c.
Proof.
move=> m P M p q r c pq; rewrite left_loop // /mult_by_Givens_left.
pose V r c := if r == p then gmat P 0 0 * M p c + gmat P 0 1 * M q c
      else if r == q then gmat P 1 0 * M p c + gmat P 1 1 * M q c else M r c.
pose Q k (N : mat S) := forall r c, N r c = if (c < k)%N then V r c else M r c.
move: r c; apply: (loopP (P := Q)) => // k N /andP [_ km] H r c.
rewrite !setE /= !H ltnn ltnS [(c <= k)%N]leq_eqVlt /V.
case: (c == k) / eqP => [->|_] /=; last by rewrite !andbF.
rewrite !andbT ltnn; case: (r == q) / eqP => [->|] //.
by rewrite eq_sym (negbTE pq) /gmat /= mulNr addrC.
Qed.

Lemma givens_right : forall n P M p q r c, p != q ->
  mult_by_Givens_right S cj n P M p q r c = mult_by_2x2_right S n p q (gmat P) M r c.
Proof.
move=> n P M p q r c pq; rewrite right_loop // /mult_by_Givens_right.
pose V r c := if c == p then M r p * gmat P 0 0 + M r q * gmat P 1 0
      else if c == q then M r p * gmat P 0 1 + M r q * gmat P 1 1 else M r c.
pose Q k (N : mat S) := forall r c, N r c = if (r < k)%N then V r c else M r c.
move: r c; apply: (loopP (P := Q)) => // k N /andP [_ km] H r c.
rewrite !setE /= !H ltnn ltnS [(r <= k)%N]leq_eqVlt /V.
case: (r == k) / eqP => [->|_] //=.
rewrite ltnn; case: (c == q) / eqP => [->|] //.
  by rewrite eq_sym (negbTE pq).
by case: eqP => // _; rewrite /gmat /= mulrN [_ * cj _]mulrC.
Qed.

Definition rotation n (P : givens S) p q : 'M[F]_n := embed2 n p q (gmat P).

Lemma leftM : forall n m p q P M, (p < n)%N -> (q < n)%N -> p != q ->
  mxr n m (mult_by_Givens_left S cj m P M p q) = rotation n P p q *m mxr n m M.
Proof.
move=> n m p q P M pn qn pq; rewrite /rotation -leftE //.
by apply/matrixP => i j; rewrite !mxE givens_left.
Qed.

Lemma rightM : forall n m p q P M, (p < m)%N -> (q < m)%N -> p != q ->
  mxr n m (mult_by_Givens_right S cj n P M p q) = mxr n m M *m rotation m P p q.
Proof.
move=> n m p q P M pn qn pq; rewrite /rotation -rightE //.
by apply/matrixP => i j; rewrite !mxE givens_right.
Qed.

Lemma daggerM : forall n p q (P : givens S), p != q -> cj (gc P) = gc P ->
  rotation n (givens_dagger S P) p q = adjoint cj (rotation n P p q).
Proof.
move=> n p q P pq cR; apply/matrixP => i j; rewrite !mxE /gmat /=.
have qp : (q == p) = false by rewrite eq_sym (negbTE pq).
case: (i == p :> nat) / eqP => [ip|ip].
  case: (j == p :> nat) / eqP => [jp|jp]; first by rewrite cR.
  case: (j == q :> nat) / eqP => [jq|jq]; first by rewrite rmorphN (cjK C).
  by move/eqP/negbTE: jp; rewrite -val_eqE /= ip => ->; rewrite rmorph0.
case: (i == q :> nat) / eqP => [iq|iq].
  case: (j == p :> nat) / eqP => [jp|jp]; first by rewrite rmorphN opprK.
  case: (j == q :> nat) / eqP => [jq|jq]; first by rewrite cR.
  by move/eqP/negbTE: jq; rewrite -val_eqE /= iq => ->; rewrite rmorph0.
case: (j == p :> nat) / eqP => [jp|jp].
  by move/eqP/negbTE: ip; rewrite -val_eqE /= jp => ->; rewrite rmorph0.
case: (j == q :> nat) / eqP => [jq|jq].
  by move/eqP/negbTE: iq; rewrite -val_eqE /= jq => ->; rewrite rmorph0.
by rewrite eq_sym; case: eqP; rewrite ?rmorph1 ?rmorph0.
Qed.

Lemma rotation_unitary : forall n p q (P : givens S), (p < n)%N -> (q < n)%N -> p != q -> cj (gc P) = gc P ->
  gc P ^+ 2 + `|gs P| ^+ 2 = 1 -> unitary cj (rotation n P p q).
Proof.
move=> n p q P pn qn pq cR N; rewrite /unitary -daggerM //.
pose B : nat -> nat -> F := fun i j =>
  if (i == p) then if j == p then gmat P 0 0 else if j == q then gmat P 0 1 else 0
  else if (i == q) then if j == p then gmat P 1 0 else if j == q then gmat P 1 1 else 0
  else (i == j)%:R.
have -> : rotation n P p q = mxr n n B by apply/matrixP => i j; rewrite !mxE.
rewrite /rotation -(leftE f u) //; apply/matrixP => i j; rewrite !mxE left_loop // ltn_ord /B !eqxx /gmat /=.
have qp : (q == p) = false by rewrite eq_sym (negbTE pq).
rewrite qp rmorphN opprK -[_ == j]val_eqE /=.
have N1 : gc P * gc P + - gs P * - cj (gs P) = 1 by rewrite mulrNN (cj_norm C) -expr2.
have N2 : cj (gs P) * gs P + gc P * gc P = 1 by rewrite addrC [_ * gs P]mulrC (cj_norm C) -expr2.
case: (i == p :> nat) / eqP => [ip|ip].
  rewrite ip; case: (j == p :> nat) / eqP => [->|jp]; first by rewrite eqxx N1.
  rewrite [p == j]eq_sym; move/eqP/negbTE: (jp) => ->.
  case: eqP => // jq; last by rewrite !mulr0 addr0.
  by rewrite mulNr mulrC subrr.
case: (i == q :> nat) / eqP => [iq|iq].
  rewrite iq; case: (j == p :> nat) / eqP => [->|jp]; first by rewrite qp mulrN [_ * cj _]mulrC subrr.
  by rewrite [q == j]eq_sym; case: eqP => // jq; rewrite ?mulr0 ?addr0.
by case: eqP.
Qed.

End Rotation.
