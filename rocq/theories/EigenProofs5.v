(** Singular values: normalisation of the columns and their order. *)
Set Warnings "-notation-overridden,-ambiguous-paths".
From mathcomp Require Import all_ssreflect all_algebra all_fingroup.
From Verif Require Import LinalgModel LinalgSpec LinalgProofs1 LinalgProofs3 LinalgProofs4
  FieldTac MatrixModel MatrixSpec MatrixProofs1 MatrixProofs2 SortModel SortSpec SortProofs
  EigenModel EigenSpec EigenProofs1 EigenProofs2 EigenProofs3 EigenProofs4.
Set Implicit Arguments.
Unset Strict Implicit.
Unset Printing Implicit Defensive.
Import Order.TTheory GRing.Theory Num.Theory.
Local Open Scope ring_scope.

Local Arguments MatrixModel.of_nat : simpl never.
Local Arguments setv : simpl never.

(** Sorting looks at the first N elements only. *)
Lemma sink_ext : forall (T : Type) (wrong : T -> T -> bool) (c d : nat -> T) N,
  (forall i, (i < N)%N -> c i = d i) ->
  forall j p, (j < N)%N -> permutes N p -> sink wrong c j p = sink wrong d j p.
Proof.
move=> T wrong c d N E; elim=> // j IH p jN H /=.
have j1 := ltnW jN.
have [R _] := H; rewrite !E ?R //; case: (wrong _ _) => //; apply: IH => //.
exact: swap_permutes.
Qed.

Lemma sort_ext : forall (T : Type) (less : T -> T -> bool) fresh N ord (c d : nat -> T) p,
  (forall i, (i < N)%N -> c i = d i) -> (sort less fresh N ord c p).2 = (sort less fresh N ord d p).2.
Proof.
move=> T less fresh N ord c d p E; rewrite /sort.
set p0 := loop 0 N _ p.
have P0 : permutes N p0 by split=> [i iN|i j iN jN]; rewrite /p0 !initE.
have L : forall wr, loop 1 N (fun i p => sink wr c i p) p0 = loop 1 N (fun i p => sink wr d i p) p0.
  move=> wr; case: (posnP N) => [N0|N0]; first by rewrite N0 !loop_nil.
  suff [] : permutes N (loop 1 N (fun i p => sink wr c i p) p0) /\
     loop 1 N (fun i p => sink wr c i p) p0 = loop 1 N (fun i p => sink wr d i p) p0 by [].
  pose P k (r : nat -> nat) := permutes N r /\ r = loop 1 k (fun i p => sink wr d i p) p0.
  apply: (loopP (P := P)) => //.
  move=> k r /andP [k0 kN] [H E1]; rewrite /P loopSr // -E1; split; first exact: sink_permutes.
  exact: sink_ext E _ _ kN H.
by case: ord => //=; rewrite L.
Qed.

Section Singular.
Variables (F : numFieldType) (f : F -> F) (u : F) (cj : {rmorphism F -> F}) (re root stale : F -> F) (eps : F).
Notation S := (field_scalars f u).
Hypothesis C : complex_numbers cj re root.

Lemma sorted_numbers' : forall n ord (ev : nat -> F), (forall i, (i < n)%N -> ev i \is Num.real) ->
  exists s : 'S_n, let '(E, perm) := sorted_order S n ord ev in
  [/\ forall i : 'I_n, perm i = s i, forall i : 'I_n, E i = ev (s i) & in_sequence n ord E].
Proof.
move=> n ord ev R; pose ew i := if (i < n)%N then ev i else 0.
have Rw : forall i, ew i \is Num.real by move=> i; rewrite /ew; case: ifP => [/R //|_]; exact: rpred0.
have E : forall i, (i < n)%N -> ev i = ew i by move=> i iN; rewrite /ew iN.
have [s H] := sorted_numbers f u n ord Rw; exists s.
have X := @sort_ext F (less S) (unassigned S) n ord _ _ (fun=> 0%N) E.
have V := @sort_values F (less S) (unassigned S) n ord ev (fun=> 0%N).
have V' := @sort_values F (less S) (unassigned S) n ord ew (fun=> 0%N).
have [Pr _] := @sort_permutes F (less S) (unassigned S) n ord ev (fun=> 0%N).
move: H X V V' Pr; rewrite /sorted_order.
case: (sort _ _ _ _ ew _) => E1 p1; case: (sort _ _ _ _ ev _) => E2 p2 /= [H1 H2 H3] X V V' Pr.
rewrite -X in V' H1.
have EE : forall i, (i < n)%N -> E2 i = E1 i by move=> i iN; rewrite V // V' // E // Pr.
split=> [i|i|i j ij].
- exact: H1.
- by rewrite EE // H2 E.
have [ij0 jn] := andP ij; rewrite !EE //; first exact: H3.
exact: ltn_trans jn.
Qed.

Lemma squarenorm_sum : forall n (v : nat -> F), squarenorm_vec S n v = \sum_(k < n) `|v k| ^+ 2.
Proof.
move=> n v; rewrite /squarenorm_vec /= (loop_sum (fun i => `|v i| ^+ 2)) //.
by rewrite add0r big_mkord.
Qed.

(** The elements of M^dagger M. *)
Definition gram n (M : nat -> nat -> F) (i j : nat) : F := \sum_(k < n) cj (M k i) * M k j.

Lemma gramE : forall n M (i j : 'I_n), (adjoint cj (mxr n n M) *m mxr n n M) i j = gram n M i j.
Proof. by move=> n M i j; rewrite mxE; apply: eq_bigr => k _; rewrite !mxE. Qed.

Lemma dot_gram : forall n M i j, dot S cj n (column S M i) (column S M j) = gram n M i j.
Proof.
move=> n M i j; rewrite /dot /= (loop_sum (fun k => cj (M k i) * M k j)) // add0r big_mkord.
by [].
Qed.

Lemma squarenorm_gram : forall n M i, squarenorm_vec S n (column S M i) = gram n M i i.
Proof. by move=> n M i; rewrite squarenorm_sum; apply: eq_bigr => k _; rewrite mulrC (cj_norm C). Qed.

Lemma gram_conj : forall n M i j, cj (gram n M i j) = gram n M j i.
Proof.
move=> n M i j; rewrite rmorph_sum; apply: eq_bigr => k _.
by rewrite rmorphM (cjK C) mulrC.
Qed.

Lemma gram_ge0 : forall n M i, 0 <= gram n M i i.
Proof. by move=> n M i; rewrite -squarenorm_gram squarenorm_sum sumr_ge0 // => k _; rewrite exprn_ge0. Qed.

Lemma normalizeE : forall n (M : nat -> nat -> F),
  let '(M', s) := normalize S root n M in
  (forall i, (i < n)%N -> s i = root (gram n M i i)) /\
  (forall k i, (k < n)%N -> (i < n)%N -> M' k i = quotient S (M k i) (s i)).
Proof.
move=> n M; rewrite /normalize.
pose P m (st : (nat -> nat -> F) * (nat -> F)) :=
  [/\ forall i, (i < m)%N -> st.2 i = root (gram n M i i),
      forall k i, (k < n)%N -> (i < m)%N -> st.1 k i = quotient S (M k i) (st.2 i) &
      forall k i, (m <= i)%N -> st.1 k i = M k i].
set st := loop 0 n _ _; have : P n st; last by case: st => M' s [H1 H2 _].
apply: (loopP (P := P)) => // m {st} [M1 s] /andP [_ mn] [/= H1 H2 H3].
have col : forall k, column S M1 m k = M k m by move=> k; rewrite /column H3.
set s1 := setv s m _.
have sm : s1 m = root (gram n M m m).
  rewrite /s1 setvE eqxx -squarenorm_gram !squarenorm_sum; congr root.
  by apply: eq_bigr => k _; rewrite col.
have L : forall k i, loop 0 n (fun k M => set S M k m (quotient S (column S M1 m k) (s1 m))) M1 k i =
    if (i == m) && (k < n)%N then quotient S (M k m) (s1 m) else M1 k i.
  pose Q l (N : nat -> nat -> F) := forall k i, N k i =
    if (i == m) && (k < l)%N then quotient S (M k m) (s1 m) else M1 k i.
  apply: (loopP (P := Q)) => // [k i|l N /andP [_ ln] H k i]; first by rewrite andbF.
  rewrite setE H ltnS [(k <= l)%N]leq_eqVlt; case: eqP => [->|_] //=.
  by rewrite col; case: eqP => [->|_].
split=> /= [i|k i kn|k i mi].
- rewrite ltnS leq_eqVlt => /orP [/eqP -> //|im].
  by rewrite /s1 setvE ltn_eqF // H1.
- rewrite ltnS leq_eqVlt => /orP [/eqP ->|im]; first by rewrite L eqxx kn.
  by rewrite L ltn_eqF //= H2 // /s1 setvE ltn_eqF.
by rewrite L gtn_eqF //= H3 // ltnW.
Qed.

Lemma finish_ok : forall n ord (M V : nat -> nat -> F) rot,
  let '(s, U, W, r) := finish S root n ord M V rot in
  exists p : 'S_n, [/\ r = rot, mxr n n W = col_perm p (mxr n n V),
    forall i : 'I_n, s i = root (gram n M (p i) (p i)),
    forall k i : 'I_n, U k i = quotient S (M k (p i)) (s i) & in_sequence n ord s].
Proof.
move=> n ord M V rot; rewrite /finish.
have := normalizeE n M; case: (normalize _ _ _ _) => U s [Hs HU].
have R : forall i, (i < n)%N -> s i \is Num.real.
  by move=> i iN; rewrite Hs // ger0_real // (root_ge0 C) // gram_ge0.
have G : forall o : order, let '(s0, U0, W, r) := (let '(s, perm) := sorted_order S n o s in
      (s, permute_columns S n n perm U, permute_columns S n n perm V, rot)) in
    exists p : 'S_n, [/\ r = rot, mxr n n W = col_perm p (mxr n n V),
    forall i : 'I_n, s0 i = root (gram n M (p i) (p i)),
    forall k i : 'I_n, U0 k i = quotient S (M k (p i)) (s0 i) & in_sequence n o s0].
  move=> o; have := sorted_numbers' o R; case: (sorted_order _ _ _ _) => E perm [p [H1 H2 H3]].
  exists p; split=> //.
  - exact: permute_columnsE.
  - by move=> i; rewrite H2 Hs.
  move=> k i; have := congr1 (fun X : 'M[F]_n => X k i) (permute_columnsE f u n U H1).
  by rewrite !mxE => ->; rewrite HU // H2.
case: ord; [|exact: (G ascending)|exact: (G descending)].
exists 1%g; split=> //.
- by apply/matrixP => i j; rewrite !mxE perm1.
- by move=> i; rewrite perm1 Hs.
by move=> k i; rewrite perm1 HU.
Qed.

End Singular.
