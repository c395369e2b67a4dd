(** Eigenvalues and eigenvectors, and their order. *)
Set Warnings "-notation-overridden,-ambiguous-paths".
From mathcomp Require Import all_ssreflect all_algebra all_fingroup.
From Verif Require Import LinalgModel LinalgSpec LinalgProofs1 LinalgProofs3 LinalgProofs4
  FieldTac MatrixModel MatrixSpec MatrixProofs1 MatrixProofs2 SortModel SortSpec SortProofs
  EigenModel EigenSpec EigenProofs1 EigenProofs2 EigenProofs3.
Set Implicit Arguments.
Unset Strict Implicit.
Unset Printing Implicit Defensive.
Import Order.TTheory GRing.Theory Num.Theory.
Local Open Scope ring_scope.

Local Arguments MatrixModel.of_nat : simpl never.

Lemma permutes_perm n (p : nat -> nat) : permutes n p -> exists s : 'S_n, forall i : 'I_n, p i = s i.
Proof.
case=> R I; have inj : injective (fun i : 'I_n => Ordinal (R i (ltn_ord i))).
  by move=> i j /(congr1 val) /= E; apply: val_inj; exact: (I _ _ (ltn_ord i) (ltn_ord j) E).
by exists (perm inj) => i; rewrite permE.
Qed.

Section Order.
Variables (F : numFieldType) (f : F -> F) (u : F) (cj : {rmorphism F -> F}) (re root stale : F -> F) (eps : F).
Notation S := (field_scalars f u).
Hypothesis C : complex_numbers cj re root.

Lemma real_order : forall c : nat -> F, (forall i, c i \is Num.real) ->
  weak_order (fun a b => less S (c a) (c b)).
Proof.
move=> c R; split=> [i|i j k|i j k] /=; rewrite ?ltxx //; first exact: lt_trans.
by move=> ik; case: (real_ltP (R i) (R j)) => //= ji; exact: le_lt_trans ji ik.
Qed.

(** Sorted numbers and columns. *)
Definition in_sequence n (ord : order) (E : nat -> F) : Prop := forall i j, (i < j < n)%N ->
  match ord with unsorted => True | ascending => E i <= E j | descending => E j <= E i end.

Lemma sorted_numbers : forall n ord (ev : nat -> F), (forall i, ev i \is Num.real) ->
  exists s : 'S_n, let '(E, perm) := sorted_order S n ord ev in
  [/\ forall i : 'I_n, perm i = s i, forall i : 'I_n, E i = ev (s i) & in_sequence n ord E].
Proof.
move=> n ord ev R; rewrite /sorted_order.
have Pm := @sort_permutes F (less S) (unassigned S) n ord ev (fun=> 0%N).
have V := @sort_values F (less S) (unassigned S) n ord ev (fun=> 0%N).
have O := @sort_sorted F (less S) (unassigned S) n ord ev (fun=> 0%N) (real_order R).
move: Pm V O; case: (sort _ _ _ _ _ _) => E p /= Pm V O.
have [s sE] := permutes_perm Pm; exists s; split=> // [i|i j ij]; first by rewrite V // sE.
have iN : (i < n)%N by case/andP: ij; exact: ltn_trans.
have jN : (j < n)%N by case/andP: ij.
have LE : forall a b, (ev a < ev b) || ~~ (ev b < ev a) && (a < b)%N -> ev a <= ev b.
  by move=> a b /orP [/ltW //|/andP [+ _]]; rewrite real_leNgt.
have GE : forall a b, (ev b < ev a) || ~~ (ev a < ev b) && (a < b)%N -> ev b <= ev a.
  by move=> a b /orP [/ltW //|/andP [+ _]]; rewrite real_leNgt.
by case: ord O V => // O V; have := O ltac:(by []) i j ij; rewrite /in_order /= !V //; [exact: LE|exact: GE].
Qed.

Lemma permuted_product : forall n (s : 'S_n) (V : 'M[F]_n) (A : 'M[F]_n) i j,
  (adjoint cj (col_perm s V) *m A *m col_perm s V) i j = (adjoint cj V *m A *m V) (s i) (s j).
Proof.
move=> n s V A i j; rewrite !mxE; apply: eq_bigr => k _; rewrite !mxE; congr (_ * _).
by apply: eq_bigr => l _; rewrite !mxE.
Qed.

Lemma permuted_unitary : forall n (s : 'S_n) (V : 'M[F]_n), unitary cj V -> unitary cj (col_perm s V).
Proof.
move=> n s V U; apply/matrixP => i j; have := permuted_product s V 1%:M i j.
by rewrite !mulmx1 => ->; rewrite U !mxE (inj_eq perm_inj).
Qed.

Lemma permuted_offdiagonal : forall n (s : 'S_n) (A B : 'M[F]_n), (forall i j, B i j = A (s i) (s j)) ->
  offdiagonal B = offdiagonal A.
Proof.
move=> n s A B E; rewrite /offdiagonal [RHS](reindex_inj (@perm_inj _ s)) /=.
apply: eq_bigr => i _; rewrite [RHS](reindex_inj (@perm_inj _ s)) /=.
by apply: eq_big => [j|j _]; rewrite ?E // (inj_eq perm_inj).
Qed.

Variable n : nat.
Hypotheses (n1 : (1 < n)%N) (eps0 : 0 <= eps).

Lemma initial_state : forall A : nat -> nat -> F, hermitean cj (mxr n n A) ->
  state cj (mxr n n A) 0 A (of_scalar S n (one S)) (fun i => re (A i i)).
Proof.
move=> A H; split=> //.
- split=> //; rewrite of_scalarE /unitary; apply/matrixP => i j; rewrite mulmx1 !mxE eq_sym.
  by case: eqP; rewrite ?rmorph1 ?rmorph0.
- rewrite of_scalarE mulmx1 -[RHS]mul1mx; congr (_ *m _); apply/matrixP => i j; rewrite !mxE eq_sym.
  by case: eqP; rewrite ?rmorph1 ?rmorph0.
- by move=> i iN; rewrite (re_fix C) // (herm H).
- by move=> i; exact: re_real C _.
by rewrite expr0 mul1r.
Qed.

Lemma eigen_ok : forall ord (A : nat -> nat -> F), hermitean cj (mxr n n A) ->
  exists E U rot, eigen_hermitean S cj re root eps n ord A = Some (E, U, rot) /\
  let D := adjoint cj (mxr n n U) *m mxr n n A *m mxr n n U in
  [/\ unitary cj (mxr n n U), forall i : 'I_n, D i i = E i /\ E i \is Num.real, in_sequence n ord E,
      (rot <= 100 * n * n)%N /\ offdiagonal D <= rate F n ^+ rot * offdiagonal (mxr n n A) &
      (rot < 100 * n * n)%N -> exists k l : 'I_n, k != l /\
        forall i j : 'I_n, i != j -> `|D i j| <= eps * root (`|E k| * `|E l|)].
Proof.
move=> ord A H; rewrite /eigen_hermitean.
have [M [V [ev [rot [-> [[HM UV] Eq Dg Re O] /andP [_ R] Cv]]]]] :=
  jacobi_ok f u C n1 eps0 (Nat.mul (Nat.mul 100 n) n) (initial_state H).
have Cv' : (rot < 100 * n * n)%N -> exists k l : 'I_n, k != l /\
        forall i j : 'I_n, i != j -> `|mxr n n M i j| <= eps * root (`|ev k| * `|ev l|).
  move/Cv => [p [q [pqn L]]]; have [pq qn] := andP pqn; have pn := ltn_trans pq qn.
  exists (Ordinal pn), (Ordinal qn); split; first by rewrite -val_eqE /= ltn_eqF.
  by move=> i j ij; rewrite mxE; apply: L.
have G : forall o : order, exists E U rot', (let '(E, perm) := sorted_order S n o ev in
    Some (E, permute_columns S n n perm V, rot)) = Some (E, U, rot') /\
    let D := adjoint cj (mxr n n U) *m mxr n n A *m mxr n n U in
    [/\ unitary cj (mxr n n U), forall i : 'I_n, D i i = E i /\ E i \is Num.real, in_sequence n o E,
      (rot' <= 100 * n * n)%N /\ offdiagonal D <= rate F n ^+ rot' * offdiagonal (mxr n n A) &
      (rot' < 100 * n * n)%N -> exists k l : 'I_n, k != l /\
        forall i j : 'I_n, i != j -> `|D i j| <= eps * root (`|E k| * `|E l|)].
  move=> o; have [s] := sorted_numbers n o Re; case: sorted_order => E perm [Es Ev Sq].
  exists E, (permute_columns S n n perm V), rot; split=> // D.
  have DE : forall i j, D i j = mxr n n M (s i) (s j).
    by move=> i j; rewrite /D (permute_columnsE f u _ _ Es) permuted_product Eq.
  split=> //.
  - by rewrite (permute_columnsE f u _ _ Es); exact: permuted_unitary.
  - by move=> i; rewrite DE mxE Ev -Dg.
  - by rewrite (permuted_offdiagonal DE).
  move/Cv' => [k [l [kl L]]]; exists ((s^-1)%g k), ((s^-1)%g l); rewrite (inj_eq perm_inj); split=> // i j ij.
  by rewrite DE !Ev !permKV; apply: L; rewrite (inj_eq perm_inj).
case: ord; [|exact: (G ascending)|exact: (G descending)].
exists ev, V, rot; split=> //; rewrite Eq; split=> // i.
by rewrite mxE -Dg.
Qed.

End Order.
