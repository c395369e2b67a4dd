(** Singular values: rotations of the columns. *)
Set Warnings "-notation-overridden,-ambiguous-paths".
From mathcomp Require Import all_ssreflect all_algebra all_fingroup.
From Verif Require Import LinalgModel LinalgSpec LinalgProofs1 LinalgProofs3 LinalgProofs4
  FieldTac MatrixModel MatrixSpec MatrixProofs1 MatrixProofs2 SortModel SortSpec SortProofs
  EigenModel EigenSpec EigenProofs1 EigenProofs2 EigenProofs3 EigenProofs4 EigenProofs5.
Set Implicit Arguments.
Unset Strict Implicit.
Unset Printing Implicit Defensive.
Import Order.TTheory GRing.Theory Num.Theory.
Local Open Scope ring_scope.

Local Arguments MatrixModel.of_nat : simpl never.
Local Arguments MatrixModel.of_nat : simpl never.
Local Arguments diagonalize_2x2 : simpl never.

Section Pivot.
Variables (F : numFieldType) (f : F -> F) (u : F) (cj : {rmorphism F -> F}) (re root stale : F -> F) (eps : F).
Notation S := (field_scalars f u).
Notation gram := (gram cj).
Hypothesis C : complex_numbers cj re root.

Lemma update_gramE : forall n (M B : nat -> nat -> F) p q i j, p != q -> (i < n)%N -> (j < n)%N ->
  update_gram S cj n M B p q i j =
    if (i == p) && (j == q) || (i == q) && (j == p) then 0
    else if [|| i == p, j == p, i == q | j == q] then gram n M i j else B i j.
Proof.
move=> n M B p q i j pq iN jN; rewrite /update_gram.
pose Q a b (B0 : nat -> nat -> F) k (N : nat -> nat -> F) := forall i j, N i j =
  if [|| [&& i == a, (j < k)%N & j != b] | [&& j == a, (i < k)%N & i != b]] then gram n M i j else B0 i j.
have L : forall a b B0, Q a b B0 n (loop 0 n (fun i B =>
      if Nat.eqb i b then B else
      let B := set S B a i (dot S cj n (column S M a) (column S M i)) in
      set S B i a (cj (B a i))) B0).
  move=> a b B0; apply: (loopP (P := Q a b B0)) => // [r c|k N /andP [_ kn] H r c]; first by rewrite !andbF.
  rewrite eqbE; case: (k == b) / eqP => [kb|/eqP kb].
    rewrite H !ltnS [(r <= k)%N]leq_eqVlt [(c <= k)%N]leq_eqVlt; congr (if _ then _ else _).
    by rewrite kb; case: eqP; case: (c =P b); case: (c == a); case: (r =P b); rewrite ?andbF.
  rewrite /= !setE !eqxx /= H dot_gram !ltnS [(r <= k)%N]leq_eqVlt [(c <= k)%N]leq_eqVlt.
  case: (r == k) / eqP => [->|rk]; case: (c == a) / eqP => [->|ca] /=.
  - by rewrite kb orbT (gram_conj C).
  - case: (k == a) / eqP => [ka|ka] /=; last by [].
    by case: (c == k) / eqP => [->|ck] //=; rewrite -ka kb.
  - case: (r == a) / eqP => [ra|ra] //=.
    by case: (a == k) / eqP => [ak|ak] //=; case: rk; rewrite ra.
  case: (r == a) / eqP => [ra|ra] //=.
  by case: (c == k) / eqP => [->|ck] //=; rewrite kb ra.
rewrite !setE; set B1 := loop 0 n _ B; set B2 := loop 0 n _ B1.
have H2 : Q q p B1 n B2 by exact: L.
have H1 : Q p q B n B1 by exact: L.
rewrite H2 H1 iN jN /=.
have e : forall k, ~~ ((k == p) && (k == q)).
  by move=> k; apply/negP => /andP [/eqP -> E]; rewrite E in pq.
by move: (e i) (e j); case: (i == p); case: (i == q); case: (j == p); case: (j == q).
Qed.

Lemma gram_hermitean : forall n (M : nat -> nat -> F), hermitean cj (mxr n n (gram n M)).
Proof. by move=> n M; apply/matrixP => i j; rewrite !mxE (gram_conj C). Qed.

Lemma mxr_gram : forall n (M : nat -> nat -> F), mxr n n (gram n M) = adjoint cj (mxr n n M) *m mxr n n M.
Proof. by move=> n M; apply/matrixP => i j; rewrite gramE mxE. Qed.

Section Loop.
Variables (n : nat) (A : 'M[F]_n).
Hypotheses (n1 : (1 < n)%N) (eps0 : 0 <= eps).

(** What holds after rot rotations. *)
Definition pivot_state rot (M V B : nat -> nat -> F) : Prop :=
  [/\ unitary cj (mxr n n V), mxr n n M = A *m mxr n n V,
      forall i j, (i < n)%N -> (j < n)%N -> B i j = gram n M i j &
      offdiagonal (mxr n n (gram n M)) <= rate F n ^+ rot * offdiagonal (adjoint cj A *m A)].

Definition pivot_converged (M : nat -> nat -> F) : Prop := exists p q, (p < q < n)%N /\
  forall i j, (i < n)%N -> (j < n)%N -> i != j -> 
    `|gram n M i j| <= eps * (root (gram n M p p) * root (gram n M q q)).

Lemma root_mul : forall x y, 0 <= x -> 0 <= y -> root (x * y) = root x * root y.
Proof.
move=> x y x0 y0; rewrite -[RHS](root_sqr C) ?mulr_ge0 ?(root_ge0 C) //.
by rewrite exprMn !(rootK C).
Qed.

Lemma pivot_rotate : forall rot M V B p q, pivot_state rot M V B -> (p < q < n)%N -> B p q != 0 ->
  (forall i j, (i < j < n)%N -> `|B i j| <= `|B p q|) ->
  let P := diagonalize_2x2 S root (re (B p p)) (re (B q q)) (B p q) in
  let M' := mult_by_Givens_right S cj n P M p q in
  pivot_state rot.+1 M' (mult_by_Givens_right S cj n P V p q) (update_gram S cj n M' B p q).
Proof.
move=> rot M V B p q [UV E BG O] pqn nz L.
have [pq0 qn] := andP pqn; have pn := ltn_trans pq0 qn; have pq : p != q by rewrite ltn_eqF.
have BR : forall i, (i < n)%N -> re (B i i) = B i i.
  by move=> i iN; apply: (re_fix C); rewrite BG // (gram_conj C).
rewrite !BR // => P M'.
have HB : hermitean cj (mxr n n B).
  by apply/matrixP => i j; rewrite !mxE !BG // (gram_conj C).
have [U E' _ _ O'] := step f u C pqn HB nz.
have [Z1 Z2 _ OT _] := step_elements f u C pn qn pq HB nz.
rewrite -/P in U E' O' Z1 Z2 OT.
set R := mult_by_Givens_right S cj n P (mult_by_Givens_left _ _ _ _ _ _ _) p q in E' O' Z1 Z2 OT.
have ME : forall i j, set S (set S R p q 0) q p 0 i j = R i j.
  move=> i j; rewrite !setE; case: ifP => [/andP [/eqP -> /eqP ->] //|_].
  by case: ifP => [/andP [/eqP -> /eqP ->]|].
have MX : mxr n n (set S (set S R p q 0) q p 0) = mxr n n R by apply/matrixP => i j; rewrite !mxE ME.
rewrite MX in E' O'.
have BX : mxr n n B = mxr n n (gram n M) by apply/matrixP => i j; rewrite !mxE BG.
have GR : mxr n n R = mxr n n (gram n M').
  by rewrite E' BX !mxr_gram /M' rightM // adjointM !mulmxA.
have RG : forall i j, (i < n)%N -> (j < n)%N -> gram n M' i j = R i j.
  move=> i j iN jN; have /matrixP /(_ (Ordinal iN) (Ordinal jN)) := GR.
  by rewrite !mxE.
split.
- by rewrite rightM // /unitary adjointM -mulmxA [adjoint cj (mxr n n V) *m _]mulmxA UV mul1mx.
- by rewrite !rightM // E mulmxA.
- move=> i j iN jN; rewrite update_gramE //.
  case: ifP => [/orP [/andP [/eqP -> /eqP ->]|/andP [/eqP -> /eqP ->]]|_]; rewrite ?RG //.
  by case: ifP => // /negbT; rewrite !negb_or => /and4P [ip jp iq jq]; rewrite OT.
rewrite -GR O' [rate F n ^+ _]exprS -mulrA.
apply: (le_trans (contraction n1 _ (offdiagonal_largest C HB L))); first by rewrite exprn_ge0.
by rewrite BX ler_wpmul2l // rate_ge0.
Qed.

Lemma pivot_ok : forall count rot M V B, pivot_state rot M V B ->
  exists M' V' rot' B', [/\ svd_pivot_loop S cj re root eps n count rot M V B = Some (M', V', rot'),
    pivot_state rot' M' V' B', (rot <= rot' <= rot + count)%N &
    (rot' < rot + count)%N -> pivot_converged M'].
Proof.
elim=> [|count IH] rot M V B St /=.
  by exists M, V, rot, B; rewrite addn0 leqnn ltnn.
have [p [q [-> pqn L]]] := find_largest f u C B n1.
have [pq0 qn] := andP pqn; have pn := ltn_trans pq0 qn; have pq : p != q by rewrite ltn_eqF.
have BG : forall i j, (i < n)%N -> (j < n)%N -> B i j = gram n M i j by case: St.
have BR : forall i, (i < n)%N -> re (B i i) = gram n M i i.
  by move=> i iN; rewrite (re_fix C) BG // (gram_conj C).
have NB : root `|re (B p p) * re (B q q)| = root (gram n M p p) * root (gram n M q q).
  by rewrite !BR // ger0_norm ?mulr_ge0 ?(gram_ge0 f u C) // root_mul ?(gram_ge0 f u C).
case: ifP => Le.
  exists M, V, rot, B; rewrite leqnn leq_addr; split=> // _; exists p, q; split=> // i j iN jN.
  rewrite NB in Le.
  rewrite neq_ltn => /orP [ij|ij]; first by rewrite -BG //; apply: le_trans Le; apply: L; rewrite ij.
  by rewrite -(norm_cj C) (gram_conj C) -BG //; apply: le_trans Le; apply: L; rewrite ij.
have nz : B p q != 0.
  apply/eqP => Z; move: Le; rewrite Z normr0 => /negP; apply.
  by rewrite NB !mulr_ge0 // (root_ge0 C) // (gram_ge0 f u C).
have := pivot_rotate St pqn nz L.
set M1 := mult_by_Givens_right S _ _ _ M _ _; set V1 := mult_by_Givens_right S _ _ _ V _ _.
set B1 := update_gram _ _ _ _ _ _ _.
move=> St1; have [M' [V' [rot' [B' [E St' /andP [R1 R2] Cv]]]]] := IH _ _ _ _ St1.
exists M', V', rot', B'; split=> //; first by rewrite (ltnW R1) -addSnnS.
by rewrite -addSnnS.
Qed.

End Loop.

Variable n : nat.

Lemma unit_unitary : unitary cj (mxr n n (of_scalar S n (one S))).
Proof.
rewrite of_scalarE /unitary; apply/matrixP => i j; rewrite mulmx1 !mxE eq_sym.
by case: eqP; rewrite ?rmorph1 ?rmorph0.
Qed.

(** From M = A V to the result. *)
Lemma result_ok : forall ord (A M V : nat -> nat -> F) rot,
  unitary cj (mxr n n V) -> mxr n n M = mxr n n A *m mxr n n V ->
  let '(s, U, W, r) := finish S root n ord M V rot in
  r = rot /\ exists p : 'S_n,
  let G := adjoint cj (mxr n n A *m mxr n n W) *m (mxr n n A *m mxr n n W) in
  [/\ unitary cj (mxr n n W) /\ in_sequence n ord s,
      forall i j : 'I_n, G i j = gram n M (p i) (p j),
      forall i : 'I_n, 0 <= s i /\ G i i = s i ^+ 2,
      forall i : 'I_n, s i = root (gram n M (p i) (p i)) &
      forall k i : 'I_n, U k i = quotient S ((mxr n n A *m mxr n n W) k i) (s i)].
Proof.
move=> ord A M V rot UV E; have := finish_ok f u C n ord M V rot.
case: (finish _ _ _ _ _ _ _) => [[[s U] W] r] [p [-> EW Es EU Sq]]; split=> //; exists p => G.
have AW : mxr n n A *m mxr n n W = col_perm p (mxr n n M).
  by rewrite EW E; apply/matrixP => i j; rewrite !mxE; apply: eq_bigr => k _; rewrite !mxE.
have GE : forall i j : 'I_n, G i j = gram n M (p i) (p j).
  by move=> i j; rewrite /G AW mxE; apply: eq_bigr => k _; rewrite !mxE.
split=> // [|i|k i].
- by split=> //; rewrite EW; exact: permuted_unitary.
- by rewrite GE Es (root_ge0 C) ?(rootK C) ?(gram_ge0 f u C).
by rewrite AW EU !mxE.
Qed.

(** For an invertible matrix no singular value is zero, and the product of the
    factors is the matrix. *)
Lemma invertible_ok : forall (A U W : nat -> nat -> F) (s : nat -> F),
  let G := adjoint cj (mxr n n A *m mxr n n W) *m (mxr n n A *m mxr n n W) in
  unitary cj (mxr n n W) -> (forall i : 'I_n, 0 <= s i /\ G i i = s i ^+ 2) ->
  (forall k i : 'I_n, U k i = quotient S ((mxr n n A *m mxr n n W) k i) (s i)) ->
  mxr n n A \in unitmx ->
  [/\ forall i : 'I_n, 0 < s i,
      mxr n n A = mxr n n U *m diag_mx (\row_i s i) *m adjoint cj (mxr n n W) &
      forall i j : 'I_n, (adjoint cj (mxr n n U) *m mxr n n U) i j = G i j / (s i * s j)].
Proof.
move=> A U W s G UW HG HU IA.
have UW' := mulmx1C UW.
have IW : mxr n n W \in unitmx by have [] := mulmx1_unit UW'.
have s0 : forall i : 'I_n, s i != 0.
  move=> i; apply/eqP => Z; have [_] := HG i; rewrite Z expr0n /= => G0.
  have K : forall k, (mxr n n A *m mxr n n W) k i = 0.
    move=> k; move: G0; rewrite /G mxE => /eqP; rewrite psumr_eq0 => [/allP /(_ k)|l _].
      by rewrite mem_index_enum !mxE mulrC (cj_norm C) => /(_ isT); rewrite expf_eq0 normr_eq0 /= => /eqP.
    by rewrite !mxE mulrC (cj_norm C) exprn_ge0.
  have IAW : mxr n n A *m mxr n n W \in unitmx by rewrite unitmx_mul IA.
  have /matrixP /(_ i i) := mulVmx IAW; rewrite !mxE eqxx /= big1 => [/esym /eqP|k _]; first by rewrite oner_eq0.
  by rewrite K mulr0.
have UE : forall k i : 'I_n, U k i = (mxr n n A *m mxr n n W) k i / s i.
  by move=> k i; rewrite HU /quotient /= (negbTE (s0 i)).
split=> [i||i j].
- by rewrite lt0r s0; case: (HG i).
- have -> : mxr n n U *m diag_mx (\row_i s i) = mxr n n A *m mxr n n W.
    apply/matrixP => k i; rewrite mul_mx_diag mxE [mxr _ _ _ _ _]mxE UE [(\row__ _) _ _]mxE.
    by rewrite divfK.
  by rewrite -mulmxA UW' mulmx1.
rewrite /G !mxE mulr_suml; apply: eq_bigr => k _; rewrite !mxE !UE rmorphM.
rewrite fmorphV (cj_ge0 C (proj1 (HG i))) invfM mulrACA.
by rewrite !mxE.
Qed.

End Pivot.
