(** C69: eigenvalues and eigenvectors of hermitean matrices. *)
Set Warnings "-notation-overridden,-ambiguous-paths".
From mathcomp Require Import all_ssreflect all_algebra all_fingroup.
From Verif Require Import LinalgModel LinalgSpec LinalgProofs1 LinalgProofs4 MatrixModel MatrixSpec MatrixProofs1
  MatrixProps SortModel EigenModel EigenSpec EigenProofs1 EigenProofs2 EigenProofs3 EigenProofs4.
Set Implicit Arguments.
Unset Strict Implicit.
Unset Printing Implicit Defensive.
Import Order.TTheory GRing.Theory Num.Theory.
Local Open Scope ring_scope.

(** The matrix U is unitary, the numbers E are real and are the diagonal of
    D = U^dagger A U, in the order that was asked for.  The sum of the squares of
    the other elements of D has been multiplied by 1 - 2 / (n (n - 1)) or less
    with each rotation, and unless the number of rotations has reached its limit,
    none of them is larger than eps sqrt(|E_k E_l|). *)
Theorem C69_eigenvalues : forall (F : numFieldType) (f : F -> F) (u : F) (cj : {rmorphism F -> F})
    (re root : F -> F) (eps : F), complex_numbers cj re root -> 0 <= eps ->
  forall n ord (A : nat -> nat -> F), (1 < n)%N -> hermitean cj (mxr n n A) ->
  exists E U rot, eigen_hermitean (field_scalars f u) cj re root eps n ord A = Some (E, U, rot) /\
  let D := adjoint cj (mxr n n U) *m mxr n n A *m mxr n n U in
  [/\ unitary cj (mxr n n U),
      forall i : 'I_n, D i i = E i /\ E i \is Num.real,
      forall i j, (i < j < n)%N ->
        match ord with unsorted => True | ascending => E i <= E j | descending => E j <= E i end,
      (rot <= 100 * n * n)%N /\
        offdiagonal D <= (1 - 2%:R / (n * (n - 1))%N%:R) ^+ rot * offdiagonal (mxr n n A) &
      (rot < 100 * n * n)%N -> exists k l : 'I_n, k != l /\
        forall i j : 'I_n, i != j -> `|D i j| <= eps * root (`|E k| * `|E l|)].
Proof. move=> F f u cj re root eps C e0 n ord A n1 H; exact: eigen_ok. Qed.
Print Assumptions C69_eigenvalues.

(** In terms of the eigenvectors: the sum of the squares of the elements of
    A U - U E is the one of the elements of D off the diagonal, so it is small for
    the same reason. *)
Theorem C69_residual : forall (F : numFieldType) (cj : {rmorphism F -> F}) (re root : F -> F) n
    (A U : 'M[F]_n) (E : 'I_n -> F), complex_numbers cj re root -> unitary cj U ->
  let D := adjoint cj U *m A *m U in (forall i, D i i = E i) ->
  \sum_i \sum_j `|(A *m U - U *m diag_mx (\row_i E i)) i j| ^+ 2 = offdiagonal D.
Proof.
move=> F cj re root n A U E C UU D DE.
have UU' := mulmx1C UU.
pose N := D - diag_mx (\row_i E i).
have T : forall B : 'M[F]_n, \sum_i \sum_j `|B i j| ^+ 2 = \tr (adjoint cj B *m B).
  move=> B; rewrite -(total_square C) /offdiagonal -big_split /=; apply: eq_bigr => i _.
  by rewrite (bigD1 i) //= addrC.
have -> : A *m U - U *m diag_mx (\row_i E i) = U *m N.
  by rewrite mulmxBr /D !mulmxA UU' mul1mx.
rewrite T adjointM -mulmxA [adjoint cj U *m _]mulmxA UU mul1mx -T /offdiagonal.
have NE : forall i j, N i j = D i j - (if i == j then E i else 0).
  move=> i j; rewrite /N; move: (D) => D'; rewrite !mxE; case: eqP => [->|_]; rewrite ?mulr1n ?mulr0n //.
apply: eq_bigr => i _; rewrite (bigD1 i) //= NE eqxx DE subrr normr0 expr0n /= add0r.
by apply: eq_bigr => j ji; rewrite NE eq_sym (negbTE ji) subr0.
Qed.
Print Assumptions C69_residual.

(** As the code stands, 1 by 1 matrices have no defined result: the indices of the
    largest element off the diagonal are used although there is none. *)
Theorem C69_one_by_one_refuted : forall (S : scalars) (cj re root : num S -> num S) (eps : num S) ord A,
  eigen_hermitean S cj re root eps 1 ord A = None.
Proof. by []. Qed.
Print Assumptions C69_one_by_one_refuted.

(** Complex numbers, and real numbers with the identity in place of the complex
    conjugate. *)
Lemma closed_field (C : numClosedFieldType) :
  complex_numbers (conjC : C -> C) (fun x => 'Re x) (fun x => sqrtC x).
Proof.
split=> [x|x|x x0]; first by rewrite -normCK.
- by rewrite ReE.
by rewrite sqrtC_ge0 sqrtCK.
Qed.

Lemma real_field (R : rcfType) : complex_numbers (id : R -> R) id Num.sqrt.
Proof.
split=> [x|x|x x0]; first by rewrite -expr2 real_normK ?num_real.
- by rewrite -mulr2n -[x *+ 2]mulr_natr mulfK ?pnatr_eq0.
by rewrite sqrtr_ge0 sqr_sqrtr.
Qed.

(** A hermitean matrix of complex numbers. *)
Example C69_hypotheses : forall C : numClosedFieldType,
  hermitean (conjC : C -> C) (mxr 2 2 (fun i j => if i == j then 1 else if (i < j)%N then 'i else - 'i)).
Proof.
move=> C; apply/matrixP => -[[|[|i]] // iN] [[|[|j]] // jN]; rewrite !mxE /=.
- exact: conjC1.
- by rewrite rmorphN conjCi opprK.
- by rewrite conjCi.
exact: conjC1.
Qed.

(** Eigenvalues -9 and 16, found with one rotation; the square roots that occur are
    rational. *)
Definition some_roots (x : rat) : rat :=
  if x == 144%:R then 12%:R else if x == 625%:R then 25%:R else
  if x == 25%:R / 16%:R then 5%:R / 4%:R else 0.

Example C69_example :
  match eigen_hermitean rat_scalars id id some_roots (1 / 100%:R) 2 descending
    (rows [:: [:: 0; 12%:Z]; [:: 12%:Z; 7%:Z]]) with
  | Some (E, U, rot) => [&& E 0 == 16%:Q, E 1 == - 9%:Q, rot == 1,
      U 0 0 == 3%:Q / 5%:Q, U 0 1 == 4%:Q / 5%:Q, U 1 0 == 4%:Q / 5%:Q & U 1 1 == - (3%:Q / 5%:Q)]%N
  | None => false
  end.
Proof. by vm_compute. Qed.
