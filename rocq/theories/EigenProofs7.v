(** Singular values: sweeps over all pairs of columns. *)
Set Warnings "-notation-overridden,-ambiguous-paths".
From mathcomp Require Import all_ssreflect all_algebra all_fingroup.
From Verif Require Import LinalgModel LinalgSpec LinalgProofs1 LinalgProofs3 LinalgProofs4
  FieldTac MatrixModel MatrixSpec MatrixProofs1 MatrixProofs2 SortModel SortSpec SortProofs
  EigenModel EigenSpec EigenProofs1 EigenProofs2 EigenProofs3 EigenProofs4 EigenProofs5 EigenProofs6.
Set Implicit Arguments.
Unset Strict Implicit.
Unset Printing Implicit Defensive.
Import Order.TTheory GRing.Theory Num.Theory.
Local Open Scope ring_scope.

Local Arguments MatrixModel.of_nat : simpl never.
Local Arguments MatrixModel.of_nat : simpl never.
Local Arguments diagonalize_2x2 : simpl never.

Section Sweeps.
Variables (F : numFieldType) (f : F -> F) (u : F) (cj : {rmorphism F -> F}) (re root stale : F -> F) (eps : F).
Notation S := (field_scalars f u).
Notation gram := (gram cj).
Hypothesis C : complex_numbers cj re root.
Hypothesis eps0 : 0 <= eps.
Variables (n : nat) (A : 'M[F]_n).

Lemma diag_unitary : forall mpp mqq mpq p q, mpp \is Num.real -> mqq \is Num.real -> mpq != 0 ->
  (p < n)%N -> (q < n)%N -> p != q ->
  unitary cj (rotation cj n (diagonalize_2x2 S root mpp mqq mpq) p q).
Proof.
move=> mpp mqq mpq p q Rp Rq nz pn qn pq.
have [t [c [Ec Es [Rt Rc] E1 E2]]] := diag2 f u C Rp Rq nz.
apply: (rotation_unitary C) => //; first by rewrite Ec (cj_real C).
rewrite -(cj_norm C) Ec Es !rmorphM (cj_real C Rt) (cj_real C Rc) expr2.
exact: (norm_field (mc_field F) E2).
Qed.

Definition good (st : sweep_state S) : Prop :=
  unitary cj (mxr n n (sV st)) /\ mxr n n (sM st) = A *m mxr n n (sV st).

Lemma good_rotate : forall st mpp mqq mpq p q rot cont, good st ->
  mpp \is Num.real -> mqq \is Num.real -> mpq != 0 -> (p < n)%N -> (q < n)%N -> p != q ->
  let P := diagonalize_2x2 S root mpp mqq mpq in
  good (mkSweep S (mult_by_Givens_right S cj n P (sM st) p q) (mult_by_Givens_right S cj n P (sV st) p q) rot cont).
Proof.
move=> st mpp mqq mpq p q rot cont [UV E] Rp Rq nz pn qn pq P.
have U := diag_unitary Rp Rq nz pn qn pq; rewrite -/P in U.
split=> /=; last by rewrite !rightM // E mulmxA.
by rewrite rightM // /unitary adjointM -mulmxA [adjoint cj (mxr n n (sV st)) *m _]mulmxA UV mul1mx.
Qed.

Section Good.
Hypothesis stale0 : forall x, 0 <= x -> 0 <= stale x.

Lemma row_good : forall p st, (p.+1 < n)%N -> good st ->
  good (sweep_row S cj root stale eps n p st) /\
  (srot st < srot (sweep_row S cj root stale eps n p st))%N.
Proof.
move=> p st pn G; rewrite /sweep_row.
pose Q q (stt : sweep_state S * (bool * vec S * F)) :=
  [/\ good stt.1, srot stt.1 = (srot st + (q - p.+1))%N & ~~ stt.2.1.1 -> 0 <= stt.2.2].
set stt := loop _ _ _ _; suff [H1 H2 _] : Q n stt by split=> //; rewrite H2 -addn1 leq_add2l subn_gt0.
apply: (loopP (P := Q)); [exact: ltnW| |].
  by split=> //=; rewrite subnn addn0.
move=> q {stt} [st1 [[np colp] bf]] /andP [pq qn] [H1 /= H2 H3].
have sq : forall v, 0 <= squarenorm_vec S n v.
  by move=> v; rewrite squarenorm_sum sumr_ge0 // => k _; rewrite exprn_ge0.
have rot1 : (srot st1).+1 = (srot st + (q.+1 - p.+1))%N by rewrite H2 subSn // addnS.
set c1 := (if np then _ else _).
have B0 : 0 <= c1.2 by rewrite /c1; case: (np) H3 => //= H3; exact: stale0 (H3 isT).
move: B0; case: c1 => colp1 Bpp /= B0.
case: ifP => L; last by split.
split=> //=; apply: good_rotate => //.
- by rewrite ger0_real.
- by rewrite ger0_real.
- apply/eqP => Z; move: L; rewrite Z normr0 => L.
  have : 0 <= eps * root (Bpp * squarenorm_vec S n (column S (sM st1) q)).
    by rewrite mulr_ge0 // (root_ge0 C) // mulr_ge0.
  by move/le_lt_trans/(_ L); rewrite ltxx.
- exact: ltn_trans pq qn.
by rewrite ltn_eqF.
Qed.

Lemma sweep_good : forall st, good st ->
  let st' := loop 0 (n - 1) (fun p st => sweep_row S cj root stale eps n p st) st in
  good st' /\ (srot st + (n - 1) <= srot st')%N.
Proof.
move=> st G /=.
pose Q k (st' : sweep_state S) := good st' /\ (srot st + k <= srot st')%N.
apply: (loopP (P := Q)) => //; first by split=> //; rewrite addn0.
move=> p st1 /andP [_ pn] [G1 R1]; have p1 : (p.+1 < n)%N by move: pn; rewrite ltn_subRL add1n.
have [G2 R2] := row_good p1 G1; split=> //; rewrite addnS; exact: leq_ltn_trans R1 R2.
Qed.

Definition limit := (100 * (n * n))%N.

Lemma sweeps_good : forall fuel st, good st -> (0 < fuel)%N -> (limit < fuel + srot st)%N ->
  exists st', [/\ sweeps S cj root stale eps n fuel st = Some st', good st' &
    ~~ scont st' || (limit <= srot st')%N].
Proof.
elim=> // fuel IH st G _ Hf /=.
have -> : PeanoNat.Nat.ltb (srot st) (Nat.mul 100 (Nat.mul n n)) = (srot st < limit)%N.
  by apply/PeanoNat.Nat.ltb_spec0/ssrnat.ltP.
case: ifP => [/andP [ct lt]|/negbT]; last first.
  by rewrite negb_and -leqNgt => H; exists st.
set st0 := mkSweep _ _ _ _ _.
have G0 : good st0 by [].
have [G1 R1] := sweep_good G0.
set st1 := loop _ _ _ _ in G1 R1 *.
have f0 : (0 < fuel)%N by case: (fuel) Hf => //; rewrite add1n ltnS leqNgt lt.
case: (leqP n 1) => n1; last first.
  apply: IH => //; apply: leq_trans Hf _; rewrite addSn -addnS leq_add2l; apply: leq_trans R1.
  by rewrite /= -addn1 leq_add2l subn_gt0.
have E1 : st1 = st0 by rewrite /st1 loop_nil // leqn0 subn_eq0.
rewrite E1; case: (fuel) f0 => //= k _; by exists st0.
Qed.

End Good.

(** ** If an uninitialised Bpp keeps its value *)

Section Checked.
Hypothesis staleK : forall x, stale x = x.

Definition checked k (M : nat -> nat -> F) : Prop := forall i j, (i < k)%N -> (i < j < n)%N ->
  `|gram n M i j| <= eps * (root (gram n M i i) * root (gram n M j j)).

Lemma row_checked : forall p (st : sweep_state S) (M0 : nat -> nat -> F), (p.+1 < n)%N ->
  (scont st = false -> sM st = M0 /\ checked p M0) ->
  let st' := sweep_row S cj root stale eps n p st in
  scont st' = false -> sM st' = M0 /\ checked p.+1 M0.
Proof.
move=> p st M0 pn H; rewrite /sweep_row.
pose Q q (stt : sweep_state S * (bool * vec S * F)) :=
  let '(st', (np, colp, bf)) := stt in
  (np = false -> (forall k, colp k = sM st' k p) /\ bf = gram n (sM st') p p) /\
  (scont st' = false -> [/\ sM st' = M0, checked p M0 &
    forall j, (p < j < q)%N -> `|gram n M0 p j| <= eps * (root (gram n M0 p p) * root (gram n M0 j j))]).
set stt := loop _ _ _ _; suff : Q n stt.
  case: stt => st' [[np colp] bf] [_ H2] /= ct; have [-> Ck Row] := H2 ct; split=> // i j.
  by rewrite ltnS leq_eqVlt => /orP [/eqP ->|ip] ij; [exact: Row|exact: Ck].
apply: (loopP (P := Q)); [exact: ltnW| |].
  split=> // /H [-> Ck]; split=> // j /andP [pj]; rewrite ltnS leqNgt pj //.
move=> q {stt} [st1 [[np colp] bf]] /andP [pq qn] [H1 H2].
set c1 := (if np then _ else _).
have [Ec EB] : (forall k, c1.1 k = sM st1 k p) /\ c1.2 = gram n (sM st1) p p.
  rewrite /c1; case: (np) H1 => [_|/(_ erefl) []] /=; rewrite ?staleK // (squarenorm_gram C) //.
move: Ec EB; case: c1 => colp1 Bpp /= Ec EB.
case: ifP => L; first by split.
split=> //= ct; have [EM Ck Row] := H2 ct; split=> // j /andP [pj].
rewrite ltnS leq_eqVlt => /orP [/eqP ->|jq]; last by apply: Row; rewrite pj.
have dE : dot S cj n colp1 (column S (sM st1) q) = gram n (sM st1) p q.
  rewrite /dot /= (loop_sum (fun k => cj (colp1 k) * column S (sM st1) q k)) // add0r big_mkord.
  by apply: eq_bigr => k _; rewrite Ec.
move: L; rewrite dE EB (squarenorm_gram C) EM => /negbT.
rewrite -real_leNgt ?normr_real //; last first.
  by rewrite realM ?ger0_real // (root_ge0 C) // mulr_ge0 // (gram_ge0 f u C).
by rewrite (root_mul C) ?(gram_ge0 f u C).
Qed.

Lemma sweep_checked : forall st : sweep_state S, (scont st = false) ->
  let st' := loop 0 (n - 1) (fun p st => sweep_row S cj root stale eps n p st) st in
  scont st' = false -> checked n (sM st').
Proof.
move=> st ct /=.
set st' := loop _ _ _ _.
suff H : scont st' = false -> sM st' = sM st /\ checked (n - 1) (sM st).
  move=> /H [-> Ck] i j iN ij; apply: Ck => //; have [ij0 jn] := andP ij.
  by rewrite ltn_subRL add1n; exact: leq_ltn_trans ij0 jn.
pose Q k (s : sweep_state S) := scont s = false -> sM s = sM st /\ checked k (sM st).
apply: (loopP (P := Q)) => // p st1 /andP [_ pn] H.
have p1 : (p.+1 < n)%N by move: pn; rewrite ltn_subRL add1n.
exact: row_checked.
Qed.

Lemma sweeps_checked : forall fuel (st st' : sweep_state S), scont st -> sweeps S cj root stale eps n fuel st = Some st' ->
  scont st' = false -> checked n (sM st').
Proof.
move=> fuel st st' ct.
suff G : forall fuel (st : sweep_state S), (scont st = false -> checked n (sM st)) ->
    sweeps S cj root stale eps n fuel st = Some st' -> scont st' = false -> checked n (sM st').
  by apply: G; rewrite ct.
elim=> // {fuel st ct} fuel IH st H /=; case: ifP => [_|_ [<-] //].
apply: IH; exact: (@sweep_checked (mkSweep S (sM st) (sV st) (srot st) false)).
Qed.

End Checked.

End Sweeps.
