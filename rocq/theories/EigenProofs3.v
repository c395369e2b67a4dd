(** The Jacobi iteration. *)
Set Warnings "-notation-overridden,-ambiguous-paths".
From mathcomp Require Import all_ssreflect all_algebra all_fingroup.
From Verif Require Import LinalgModel LinalgSpec LinalgProofs1 LinalgProofs3 LinalgProofs4
  FieldTac MatrixModel MatrixSpec MatrixProofs1 MatrixProofs2 SortModel SortSpec SortProofs
  EigenModel EigenSpec EigenProofs1 EigenProofs2.
Set Implicit Arguments.
Unset Strict Implicit.
Unset Printing Implicit Defensive.
Import Order.TTheory GRing.Theory Num.Theory.
Local Open Scope ring_scope.

Local Arguments MatrixModel.of_nat : simpl never.
Local Arguments diagonalize_2x2 : simpl never.

Section Jacobi.
Variables (F : numFieldType) (f : F -> F) (u : F) (cj : {rmorphism F -> F}) (re root stale : F -> F) (eps : F).
Notation S := (field_scalars f u).
Hypothesis C : complex_numbers cj re root.

(** ** The largest element *)

Lemma find_largest : forall n (M : nat -> nat -> F), (1 < n)%N ->
  exists p q, [/\ find_largest_offdiag S root n M = (`|M p q|, Some (p, q)), (p < q < n)%N &
    forall i j, (i < j < n)%N -> `|M i j| <= `|M p q|].
Proof.
move=> n M n1; rewrite /find_largest_offdiag.
pose Q (seen : nat -> nat -> bool) (st : F * option (nat * nat)) :=
  [/\ forall i j, (i < j < n)%N -> seen i j -> `|M i j| ^+ 2 <= st.1, st.1 \is Num.real &
    match st.2 with None => st.1 = -1 | Some (p, q) => st.1 = `|M p q| ^+ 2 /\ (p < q < n)%N end].
set st := loop 0 _ _ _.
have : Q (fun i j => (i < n.-1)%N) st.
  have -> : (n.-1 = n - 1)%N by rewrite subn1.
  apply: (loopP (P := fun k st => Q (fun i j => (i < k)%N) st)) => //.
    by split=> //=; rewrite rpredN rpred1.
  move=> i s /andP [_ iN] [H1 H2 H3].
  have iN' : (i.+1 <= n)%N by rewrite (leq_trans iN (leq_subr _ _)).
  have := @loopP _ (fun k st => Q (fun i' j => (i' < i)%N || (i' == i) && (j < k)%N) st) i.+1 n
    (fun j st => let '(abs_mpq, pq) := st in
      let t := squarenorm S (M i j) in
      if less S abs_mpq t then (t, Some (i, j)) else (abs_mpq, pq)) s iN'.
  case=> [|j t /andP [ij jn] [J1 J2 J3]|J1 J2 J3]; last first.
  - split=> // i' j' /andP [ij jn] li; apply: J1; rewrite ?ij //.
    by move: li; rewrite ltnS leq_eqVlt => /orP [->|->] //; rewrite jn orbT.
  - move: J1 J2 J3; case: t => a pq /= {}H1 {}H2 {}H3.
    have R : `|M i j| ^+ 2 \is Num.real by rewrite rpredX // normr_real.
    case: ifP => L.
      split=> //=; last by rewrite ij.
      move=> i' j' ij' /orP [li|/andP [/eqP E]].
        by apply: (le_trans (H1 _ _ ij' _)); rewrite ?li // ltW.
      rewrite ltnS leq_eqVlt E => /orP [/eqP -> //|lj].
      by rewrite E in ij'; apply: (le_trans (H1 i j' ij' _)); rewrite ?eqxx ?lj ?orbT // ltW.
    split=> // i' j' ij' /orP [li|/andP [/eqP E]]; first by apply: H1; rewrite ?li.
    rewrite ltnS leq_eqVlt => /orP [/eqP ->|lj]; first by rewrite E real_leNgt // L.
    by apply: H1 => //; rewrite E eqxx lj orbT.
  split=> // i' j' ij /orP [li|/andP [/eqP E lj]]; first exact: H1.
  by move: ij; rewrite E ltnS in lj *; rewrite ltnNge lj.
move: {+}st => {st} [a [[p q]|]] /= [H1 H2 H3]; last first.
  have := H1 0%N 1%N n1; rewrite -ltnS prednK; last exact: ltnW.
  by move/(_ n1); rewrite H3 => /(le_trans (exprn_ge0 2 (normr_ge0 _))); rewrite oppr_ge0 ler10.
case: H3 => /= E pq; exists p, q; split=> //; first by rewrite E (root_sqr C).
move=> i j ij; rewrite -(@ler_pexpn2r _ 2) ?nnegrE // -E; apply: (H1 i j) => //.
by rewrite -ltnS prednK ?(ltnW n1) //; case/andP: ij; exact: leq_ltn_trans.
Qed.

Lemma find_largest_none : forall n (M : nat -> nat -> F), (n <= 1)%N -> (find_largest_offdiag S root n M).2 = None.
Proof.
move=> n M n1; rewrite /find_largest_offdiag loop_nil //.
by rewrite leqn0 subn_eq0.
Qed.

(** ** One rotation *)

Lemma diagonal_split : forall n (g : nat -> F) p q, (p < n)%N -> (q < n)%N -> p != q ->
  \sum_(i < n) g i = g p + g q + \sum_(i < n | (i != p :> nat) && (i != q :> nat)) g i.
Proof.
move=> n g p q pn qn pq; rewrite (bigD1 (Ordinal pn)) //= (bigD1 (Ordinal qn)) /=; last first.
  by rewrite -val_eqE /= eq_sym.
by rewrite addrA.
Qed.

Definition rate n : F := 1 - 2%:R / (n * (n - 1))%N%:R.

Lemma step : forall n (M : nat -> nat -> F) p q, (p < q < n)%N ->
  hermitean cj (mxr n n M) -> M p q != 0 ->
  let P := diagonalize_2x2 S root (M p p) (M q q) (M p q) in
  let J := rotation cj n P p q in
  let R := mult_by_Givens_right S cj n P (mult_by_Givens_left S cj n (givens_dagger S P) M p q) p q in
  let M' := set S (set S R p q 0) q p 0 in
  [/\ unitary cj J, mxr n n M' = adjoint cj J *m mxr n n M *m J,
      hermitean cj (mxr n n M'),
      forall i, (i < n)%N -> M' i i = if (i == p) || (i == q) then R i i else M i i &
      offdiagonal (mxr n n M') = offdiagonal (mxr n n M) - 2%:R * `|M p q| ^+ 2].
Proof.
move=> n M p q pqn H nz P J R M'.
have [pq0 qn] := andP pqn; have pn := ltn_trans pq0 qn; have pq : p != q by rewrite ltn_eqF.
have [U E] := step_matrix f u C pn qn pq H nz.
have [Z1 Z2 D O SQ] := step_elements f u C pn qn pq H nz.
rewrite -/P -/R -/J in U E Z1 Z2 D O SQ.
have ME : forall i j, M' i j = R i j.
  move=> i j; rewrite /M' !setE; case: ifP => [/andP [/eqP -> /eqP ->] //|_].
  by case: ifP => [/andP [/eqP -> /eqP ->]|].
have MX : mxr n n M' = mxr n n R by apply/matrixP => i j; rewrite !mxE ME.
have MD : forall i, (i < n)%N -> M' i i = if (i == p) || (i == q) then R i i else M i i.
  move=> i iN; rewrite ME; case: eqP => //= /eqP ip; case: eqP => //= /eqP iq; exact: D.
split=> //; rewrite ?MX //.
  by rewrite /hermitean E !(adjointM) (adjointK C) H mulmxA.
have := total_rotation C (mxr n n M) U; rewrite -E -!(total_square C).
have -> : \sum_i `|mxr n n R i i| ^+ 2 = \sum_(i < n) `|R i i| ^+ 2 by apply: eq_bigr => i _; rewrite mxE.
have -> : \sum_i `|mxr n n M i i| ^+ 2 = \sum_(i < n) `|M i i| ^+ 2 by apply: eq_bigr => i _; rewrite mxE.
rewrite (diagonal_split (fun i => `|R i i| ^+ 2) pn qn pq) (diagonal_split (fun i => `|M i i| ^+ 2) pn qn pq) SQ.
have -> : \sum_(i < n | (i != p :> nat) && (i != q :> nat)) `|R i i| ^+ 2
    = \sum_(i < n | (i != p :> nat) && (i != q :> nat)) `|M i i| ^+ 2.
  by apply: eq_bigr => i /andP [ip iq]; rewrite D.
set K := _ + `|M q q| ^+ 2; set Z := \sum_(i < n | _) _.
by rewrite [K + _ + Z]addrAC [K + Z + _]addrC [offdiagonal (mxr n n R) + _]addrA => /addIr <-; rewrite addrK.
Qed.

Lemma offdiagonal_largest : forall n (M : nat -> nat -> F) p q, hermitean cj (mxr n n M) ->
  (forall i j, (i < j < n)%N -> `|M i j| <= `|M p q|) ->
  offdiagonal (mxr n n M) <= (n * (n - 1))%N%:R * `|M p q| ^+ 2.
Proof.
move=> n M p q H L; rewrite /offdiagonal.
have B : forall i j : 'I_n, j != i -> `|mxr n n M i j| ^+ 2 <= `|M p q| ^+ 2.
  move=> i j ji; rewrite ler_expn2r ?nnegrE // mxE.
  move: (ji); rewrite -val_eqE neq_ltn => /orP [lt|lt]; last by apply: L; rewrite lt /=.
  by rewrite -(norm_cj C) (herm H) //; apply: L; rewrite lt /=.
apply: (@le_trans _ _ (\sum_(i < n) \sum_(j < n | j != i) `|M p q| ^+ 2)).
  by apply: ler_sum => i _; apply: ler_sum => j; exact: B.
under eq_bigr => i _ do rewrite sumr_const cardC1 card_ord.
by rewrite sumr_const card_ord -mulrnA mulr_natl mulnC subn1.
Qed.

Lemma contraction : forall n (x o : F), (1 < n)%N -> 0 <= x -> o <= (n * (n - 1))%N%:R * x ->
  o - 2%:R * x <= rate n * o.
Proof.
move=> n x o n1 x0 L; rewrite /rate mulrBl mul1r ler_add2l ler_opp2 mulrAC -mulrA.
have N0 : 0 < (n * (n - 1))%N%:R :> F by rewrite ltr0n muln_gt0 subn_gt0 n1 ltnW.
by rewrite ler_pmul2l ?ltr0n // ler_pdivr_mulr // mulrC.
Qed.

Lemma rate_ge0 : forall n, (1 < n)%N -> 0 <= rate n.
Proof.
move=> n n1; rewrite /rate subr_ge0 ler_pdivr_mulr ?mul1r ?ler_nat ?ltr0n; last first.
  by rewrite muln_gt0 subn_gt0 n1 ltnW.
by case: n n1 => [|[|n]] // _; rewrite subn1 /= -[2%N]/(2 * 1)%N leq_mul.
Qed.

(** ** The iteration *)

Section Loop.
Variables (n : nat) (A : 'M[F]_n).
Hypotheses (n1 : (1 < n)%N) (eps0 : 0 <= eps).

(** What holds after rot rotations. *)
Definition state rot (M V : nat -> nat -> F) (ev : nat -> F) : Prop :=
  [/\ hermitean cj (mxr n n M) /\ unitary cj (mxr n n V),
      adjoint cj (mxr n n V) *m A *m mxr n n V = mxr n n M,
      forall i, (i < n)%N -> ev i = M i i,
      forall i, ev i \is Num.real &
      offdiagonal (mxr n n M) <= rate n ^+ rot * offdiagonal A].

Definition converged (M : nat -> nat -> F) (ev : nat -> F) : Prop :=
  exists p q, (p < q < n)%N /\
    forall i j, (i < n)%N -> (j < n)%N -> i != j -> `|M i j| <= eps * root (`|ev p| * `|ev q|).

Lemma rotate : forall rot M V ev p q, state rot M V ev -> (p < q < n)%N -> M p q != 0 ->
  (forall i j, (i < j < n)%N -> `|M i j| <= `|M p q|) ->
  let P := diagonalize_2x2 S root (ev p) (ev q) (M p q) in
  let R := mult_by_Givens_right S cj n P (mult_by_Givens_left S cj n (givens_dagger S P) M p q) p q in
  state rot.+1 (set S (set S R p q 0) q p 0) (mult_by_Givens_right S cj n P V p q)
    (setv (setv ev p (re (R p p))) q (re (R q q))).
Proof.
move=> rot M V ev p q [[HM UV] E D Re B] pqn nz L.
have [pq0 qn] := andP pqn; have pn := ltn_trans pq0 qn; have pq : p != q by rewrite ltn_eqF.
rewrite (D p pn) (D q qn) => P R.
have [U E' H' D' O'] := step pqn HM nz.
rewrite -/P -/R in U E' H' D' O'.
set M' := set S _ _ _ _ in E' H' D' O' *; set J := rotation cj n P p q in U E'.
have RR : forall i, (i < n)%N -> (i == p) || (i == q) -> re (R i i) = R i i.
  move=> i iN ipq; apply: (re_fix C).
  by have := herm H' iN iN; rewrite (D' i iN) ipq.
split=> //.
- split=> //; rewrite rightM // /unitary adjointM -mulmxA [adjoint cj (mxr n n V) *m _]mulmxA UV mul1mx.
  exact: U.
- by rewrite rightM // adjointM E' -E !mulmxA.
- move=> i iN; rewrite D' // !setvE.
  case: (i == q) / eqP => [->|iq]; first by rewrite orbT RR // eqxx orbT.
  by case: (i == p) / eqP => [->|ip] /=; [rewrite RR // eqxx|exact: D].
- by move=> i; rewrite !setvE; case: ifP => // _; [exact: re_real C _|case: ifP => // _; exact: re_real C _].
rewrite O' [rate n ^+ _]exprS -mulrA; apply: (le_trans (contraction n1 _ (offdiagonal_largest HM L))).
  by rewrite exprn_ge0.
by rewrite ler_wpmul2l // rate_ge0.
Qed.

Lemma jacobi_ok : forall count rot M V ev, state rot M V ev ->
  exists M' V' ev' rot', [/\ jacobi S cj re root eps n count rot M V ev = Some (M', V', ev', rot'),
    state rot' M' V' ev', (rot <= rot' <= rot + count)%N &
    (rot' < rot + count)%N -> converged M' ev'].
Proof.
elim=> [|count IH] rot M V ev St /=.
  by exists M, V, ev, rot; rewrite addn0 leqnn ltnn.
have [p [q [-> pqn L]]] := find_largest M n1.
case: ifP => Le.
  exists M, V, ev, rot; rewrite leqnn leq_addr; split=> // _; exists p, q; split=> // i j iN jN.
  case: St => [[HM _] _ _ _ _].
  rewrite neq_ltn => /orP [ij|ij]; first by apply: le_trans Le; apply: L; rewrite ij.
  by rewrite -(norm_cj C) (herm HM) //; apply: le_trans Le; apply: L; rewrite ij.
have nz : M p q != 0.
  apply/eqP => Z; move: Le; rewrite Z normr0 => /negP; apply.
  by rewrite mulr_ge0 // (root_ge0 C) // mulr_ge0.
have := rotate St pqn nz L.
set M1 := set S _ _ _ _; set V1 := mult_by_Givens_right _ _ _ _ _ _ _; set ev1 := setv _ _ _.
move=> St1; have [M' [V' [ev' [rot' [E St' /andP [R1 R2] Cv]]]]] := IH _ _ _ _ St1.
exists M', V', ev', rot'; split=> //; first by rewrite (ltnW R1) -addSnnS.
by rewrite -addSnnS.
Qed.

End Loop.

End Jacobi.
