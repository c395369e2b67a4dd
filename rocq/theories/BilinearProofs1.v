(** Products of generators and bilinear forms. *)
Set Warnings "-notation-overridden,-ambiguous-paths".
From mathcomp Require Import all_ssreflect all_algebra.
From Verif Require Import LinalgModel LinalgSpec LinalgProofs1 LinalgProofs3 LinalgProofs4
  FieldTac MatrixModel MatrixSpec MatrixProofs1 MatrixProofs2 EigenSpec EigenProofs1 EigenProofs2 SuModel SuSpec
  AlgebraModel AlgebraSpec AlgebraProofs1 AlgebraProofs2 AlgebraProofs3 AlgebraProofs4 AlgebraProofs5 BilinearModel.
Set Implicit Arguments.
Unset Strict Implicit.
Unset Printing Implicit Defensive.
Import Order.TTheory GRing.Theory Num.Theory.
Local Open Scope ring_scope.

Local Arguments MatrixModel.of_nat : simpl never.

(** All pairs of numbers below n. *)
Definition squares (n : nat) : seq (nat * nat) := [seq (i, j) | i <- iota 0 n, j <- iota 0 n].

Lemma mem_squares : forall n i j, ((i, j) \in squares n) = (i < n)%N && (j < n)%N.
Proof.
move=> n i j; apply/allpairsP/idP => [[[a b] /= [ha hb [-> ->]]]|/andP [hi hj]].
  by move: ha hb; rewrite !mem_iota /= !add0n => -> ->.
by exists (i, j); rewrite !mem_iota /= !add0n.
Qed.

Lemma squares_uniq : forall n, uniq (squares n).
Proof.
move=> n; apply: allpairs_uniq; [exact: iota_uniq|exact: iota_uniq|].
by move=> [a b] [c d] _ _ [-> ->].
Qed.

Lemma loopo_squares : forall X n (body : nat -> nat -> X -> option X) s,
  loopo 0 n (fun i st => loopo 0 n (fun j st => body i j st) st) s
  = foldl (fun st p => obind (body p.1 p.2) st) (Some s) (squares n).
Proof.
move=> X n body s; rewrite loopo_foldl /squares foldl_flatten subn0.
move: (Some s) => os; elim: {1 3}(iota 0 n) os => [|i l IH] os //=.
rewrite -IH; congr foldl; case: os => [st|] /=; last by rewrite (foldl_None (fun p => body p.1 p.2)).
rewrite loopo_foldl subn0 AlgebraProofs1.foldl_map /=; by [].
Qed.

Lemma loop_squares : forall X n (body : nat -> nat -> X -> X) s,
  loop 0 n (fun i st => loop 0 n (fun j st => body i j st) st) s
  = foldl (fun st p => body p.1 p.2 st) s (squares n).
Proof.
move=> X n body s; rewrite loop_foldl /squares foldl_flatten subn0.
elim: {1 3}(iota 0 n) s => [|i l IH] s //=.
by rewrite -IH loop_foldl subn0 AlgebraProofs1.foldl_map.
Qed.

Section Bilinear.
Variables (F : numFieldType) (f : F -> F) (u : F).
Notation S := (field_scalars f u).

(** The elements of a matrix that are not zero. *)
Definition nz (n : nat) (t : nat -> nat -> F) : seq (nat * nat * F) :=
  [seq (p, t p.1 p.2) | p <- squares n & t p.1 p.2 != 0].

Lemma push_fold : forall n (t : nat -> nat -> F) ps (l : sparse S), (size l <= n)%N ->
  let z := [seq (p, t p.1 p.2) | p <- ps & t p.1 p.2 != 0] in
  foldl (fun st p => obind (fun l => if t p.1 p.2 == 0 then Some l else push S n l p.1 p.2 (t p.1 p.2)) st) (Some l) ps
  = if (size l + size z <= n)%N then Some (l ++ z) else None.
Proof.
move=> n t; elim=> [|[i j] ps IH] l ln /=; first by rewrite addn0 ln cats0.
case: ifP => /= E; first by rewrite IH.
rewrite addnS; case: (ltnP (size l) n) => h.
  by rewrite pushE //= IH ?size_rcons //= addSn cat_rcons.
rewrite /push; have -> : PeanoNat.Nat.ltb (length l) n = false.
  by apply/PeanoNat.Nat.ltb_ge; apply/ssrnat.leP.
rewrite (foldl_None (fun p l => if t p.1 p.2 == 0 then Some l else push S n l p.1 p.2 (t p.1 p.2))).
by rewrite ltnNge (leq_trans h) ?leq_addr.
Qed.

Definition temp (g1 g2 : sparse S) : nat -> nat -> F :=
  List.fold_left (fun temp e1 => let '(a1, a2, v1) := e1 in
    List.fold_left (fun temp e2 => let '(b1, b2, v2) := e2 in
      if PeanoNat.Nat.eqb a2 b1 then set S temp a1 b2 (temp a1 b2 + v1 * v2) else temp) g2 temp)
    g1 (fun _ _ => 0).

Lemma tempE : forall g1 g2 r c, temp g1 g2 r c =
  \sum_(e1 <- g1) \sum_(e2 <- g2)
    (if [&& r == e1.1.1, c == e2.1.2 & e1.1.2 == e2.1.1] then e1.2 * e2.2 else 0).
Proof.
move=> g1 g2 r c; rewrite /temp fold_left_foldl.
have inner : forall e1 (t : nat -> nat -> F), (let '(a1, a2, v1) := e1 in
    List.fold_left (fun temp e2 => let '(b1, b2, v2) := e2 in
      if PeanoNat.Nat.eqb a2 b1 then set S temp a1 b2 (temp a1 b2 + v1 * v2) else temp) g2 t) r c
    = t r c + \sum_(e2 <- g2) (if [&& r == e1.1.1, c == e2.1.2 & e1.1.2 == e2.1.1] then e1.2 * e2.2 else 0).
  move=> [[a1 a2] v1] t /=; rewrite fold_left_foldl.
  elim: g2 t => [|[[b1 b2] v2] l IH] t /=; first by rewrite big_nil addr0.
  rewrite IH big_cons addrA /= eqbE; congr (_ + _).
  case: (a2 == b1); last by rewrite !andbF addr0.
  rewrite setE andbT; case: ifP => [/andP [/eqP -> /eqP ->]|_] //; by rewrite addr0.
suff H : forall t : nat -> nat -> F, foldl (fun temp e1 => let '(a1, a2, v1) := e1 in
    List.fold_left (fun temp e2 => let '(b1, b2, v2) := e2 in
      if PeanoNat.Nat.eqb a2 b1 then set S temp a1 b2 (temp a1 b2 + v1 * v2) else temp) g2 temp) t g1 r c
    = t r c + \sum_(e1 <- g1) \sum_(e2 <- g2)
        (if [&& r == e1.1.1, c == e2.1.2 & e1.1.2 == e2.1.1] then e1.2 * e2.2 else 0) by rewrite H add0r.
elim: g1 => [|e1 l IH] t /=; first by rewrite big_nil addr0.
by rewrite IH big_cons addrA inner.
Qed.

Lemma temp_mul : forall n g1 g2, sparse_ok n g1 -> sparse_ok n g2 ->
  mxr n n (temp g1 g2) = mxr n n (to_matrix S g1) *m mxr n n (to_matrix S g2).
Proof.
move=> n g1 g2 [u1 h1] [u2 h2]; apply/matrixP => r c; rewrite !mxE tempE.
transitivity (\sum_(k < n) \sum_(e1 <- g1) \sum_(e2 <- g2)
    (if ((r : nat, k : nat) == e1.1) && ((k : nat, c : nat) == e2.1) then e1.2 * e2.2 else 0)); last first.
  apply: eq_bigr => k _; rewrite !mxE !to_matrixE // mulr_suml; apply: eq_bigr => e1 _.
  rewrite mulr_sumr; apply: eq_bigr => e2 _.
  by case: (_ == e1.1); case: (_ == e2.1); rewrite ?mul0r ?mulr0.
rewrite [RHS]exchange_big /=; rewrite big_seq [RHS]big_seq; apply: eq_bigr => [[[a1 a2] v1]] e1l /=.
rewrite [RHS]exchange_big /=; apply: eq_bigr => [[[b1 b2] v2]] _ /=.
have /andP [_ /= a2n] := h1 (a1, a2) (map_f _ e1l).
rewrite (bigD1 (Ordinal a2n)) //= big1 ?addr0 => [|k ka].
  by rewrite !xpair_eqE eqxx andbT [(a2 == b1) && _]andbC.
have E : (k == a2 :> nat) = false by exact: negPf ka.
by rewrite !xpair_eqE E andbF.
Qed.

(** *** The list of products *)

Lemma generator_productE : forall n g1 g2 (l : sparse S), (size l <= n)%N ->
  let z := nz n (temp g1 g2) in
  generator_product S n g1 g2 l = if (size l + size z <= n)%N then Some (l ++ z) else None.
Proof.
move=> n g1 g2 l ln z; rewrite /generator_product.
rewrite (loopo_squares n (fun j1 j2 (l : sparse S) => if temp g1 g2 j1 j2 == 0 then Some l else push S n l j1 j2 (temp g1 g2 j1 j2))).
exact: push_fold.
Qed.

Definition fits n (gens : nat -> sparse S) (prods : nat -> nat -> sparse S) (p : nat * nat) : bool :=
  (size (prods p.1 p.2) + size (nz n (temp (gens p.1) (gens p.2))) <= n)%N.

Definition pstep n (gens : nat -> sparse S) (p : nat * nat) (prods : nat -> nat -> sparse S) :=
  match generator_product S n (gens p.1) (gens p.2) (prods p.1 p.2) with
  | None => None
  | Some l => Some (fun a b => if (Nat.eqb a p.1 && Nat.eqb b p.2)%bool then l else prods a b)
  end.

Lemma products_fold : forall n gens ps prods, uniq ps -> (forall a b, (size (prods a b : seq _) <= n)%N) ->
  let r := foldl (fun st p => obind (pstep n gens p) st) (Some prods) ps in
  if all (fits n gens prods) ps
  then exists prods', r = Some prods' /\
    forall a b, prods' a b = if (a, b) \in ps then prods a b ++ nz n (temp (gens a) (gens b)) else prods a b
  else r = None.
Proof.
move=> n gens; elim=> [|[i j] ps IH] prods ups sz r; first by exists prods; split.
move: ups => /= /andP [nin ups].
pose prods1 a b := if (Nat.eqb a i && Nat.eqb b j)%bool then prods i j ++ nz n (temp (gens i) (gens j)) else prods a b.
have E : r = foldl (fun st p => obind (pstep n gens p) st) (if fits n gens prods (i, j) then Some prods1 else None) ps.
  transitivity (foldl (fun st p => obind (pstep n gens p) st) (pstep n gens (i, j) prods) ps); first by [].
  by congr foldl; rewrite /pstep generator_productE // /fits /=; case: ifP.
clearbody r; rewrite E {r E}; case: (boolP (fits n gens prods (i, j))) => h; last exact: (foldl_None (pstep n gens)).
rewrite andTb.
have P1 : forall a b, prods1 a b = if (a, b) == (i, j) then prods i j ++ nz n (temp (gens i) (gens j)) else prods a b.
  by move=> a b; rewrite /prods1 !eqbE xpair_eqE.
have sz1 : forall a b, (size (prods1 a b : seq _) <= n)%N.
  by move=> a b; rewrite P1; case: ifP => // _; rewrite size_cat.
have A : all (fits n gens prods1) ps = all (fits n gens prods) ps.
  apply: eq_in_all => [[a b]] ab; rewrite /fits /= P1; case: eqP => // - [ai bj].
  by move: nin; rewrite -ai -bj ab.
have := IH prods1 ups sz1; rewrite A; case: ifP => // _ [prods' [-> H]].
exists prods'; split=> // a b; rewrite H P1 inE; case: eqP => [[-> ->]|_] //=.
by rewrite (negPf nin).
Qed.

Lemma product_listE : forall n gens prods, (forall a b, (size (prods a b : seq _) <= n)%N) ->
  if all (fits n gens prods) (squares (n * n - 1))
  then exists prods', generator_product_list S n gens prods = Some prods' /\
    forall a b, prods' a b = if (a, b) \in squares (n * n - 1) then prods a b ++ nz n (temp (gens a) (gens b)) else prods a b
  else generator_product_list S n gens prods = None.
Proof.
move=> n gens prods sz; rewrite /generator_product_list.
rewrite (loopo_squares (n * n - 1)%N (fun i1 i2 => pstep n gens (i1, i2))).
have := products_fold gens (squares_uniq (n * n - 1)) sz.
by rewrite (@eq_foldl _ _ _ (fun st p => obind (pstep n gens (p.1, p.2)) st)) // => st [].
Qed.

(** A list of the elements that are not zero gives the matrix. *)
Lemma nz_matrix : forall n (t : nat -> nat -> F), mxr n n (to_matrix S (nz n t)) = mxr n n t.
Proof.
move=> n t; apply/matrixP => r c; rewrite !mxE to_matrixE; last first.
  by rewrite /spos /nz -map_comp map_id_in // filter_uniq ?squares_uniq.
rewrite /nz big_map big_filter big_mkcond (bigD1_seq (r : nat, c : nat)) ?squares_uniq ?mem_squares ?ltn_ord //=.
rewrite eqxx big1 ?addr0 => [|p pn]; last by rewrite [_ == p]eq_sym (negPf pn) if_same.
by case: eqP => [->|].
Qed.

Lemma nz_ok : forall n t, sparse_ok n (nz n t).
Proof.
move=> n t; have E : spos (nz n t) = [seq p <- squares n | t p.1 p.2 != 0].
  by rewrite /spos /nz -map_comp map_id_in.
split; first by rewrite E filter_uniq ?squares_uniq.
by move=> [a b]; rewrite E mem_filter mem_squares => /andP [].
Qed.

(** *** No row of a generator has more than one element *)

Definition rowwise (l : sparse S) : Prop :=
  forall r c c', (r, c) \in spos l -> (r, c') \in spos l -> c = c'.

Lemma temp_nz : forall g1 g2 r c, temp g1 g2 r c != 0 ->
  exists k, (r, k) \in spos g1 /\ (k, c) \in spos g2.
Proof.
move=> g1 g2 r c; rewrite tempE => h.
have [e1 e1l] : exists2 e1, e1 \in g1 &
    \sum_(e2 <- g2) (if [&& r == e1.1.1, c == e2.1.2 & e1.1.2 == e2.1.1] then e1.2 * e2.2 else 0) != 0.
  apply/hasP; apply: contraNT h => /hasPn h; rewrite big1_seq // => e /andP [_ el].
  by apply/eqP; have := h e el; rewrite negbK.
move=> h'.
have [e2 e2l] : exists2 e2, e2 \in g2 & [&& r == e1.1.1, c == e2.1.2 & e1.1.2 == e2.1.1].
  apply/hasP; apply: contraNT h' => /hasPn h'; rewrite big1_seq // => e /andP [_ el].
  by rewrite (negPf (h' e el)).
case/and3P => /eqP -> /eqP -> /eqP E; exists e1.1.2; split.
  by rewrite -surjective_pairing map_f.
by rewrite E -surjective_pairing map_f.
Qed.

Lemma nz_size : forall n g1 g2, rowwise g1 -> rowwise g2 -> (size (nz n (temp g1 g2)) <= n)%N.
Proof.
move=> n g1 g2 r1 r2; rewrite /nz size_map -(size_map fst) -[X in (_ <= X)%N](size_iota 0).
apply: uniq_leq_size.
  rewrite map_inj_in_uniq ?filter_uniq ?squares_uniq // => [[a b] [c d]].
  rewrite !mem_filter /= => /andP [/temp_nz [k [k1 k2]] _] /andP [/temp_nz [k' [k1' k2']] _] E.
  by rewrite -E in k1' *; rewrite -(r1 _ _ _ k1 k1') in k2'; rewrite (r2 _ _ _ k2 k2').
move=> a /mapP [[c d]]; rewrite mem_filter mem_squares => /andP [_ /andP [cn _]] -> /=.
by rewrite mem_iota.
Qed.

End Bilinear.

Section Forms.
Variables (F : numFieldType) (f : F -> F) (u : F) (cj : {rmorphism F -> F}) (re im root : F -> F) (I : F).
Hypothesis P : complex_parts cj re im root I.
Let C : complex_numbers cj re root. Proof. by case: P. Qed.
Notation S := (field_scalars f u).
Notation glist := (glist root I).
Notation gen := (gen f u root I).

Lemma glist_rowwise : forall n x, (0 < n)%N -> (x < n * n - 1)%N -> rowwise (glist n x : sparse S).
Proof.
move=> n x n0 xn r c c'; rewrite /AlgebraProofs4.glist; case: ltnP => [xn1|nx].
  have E : spos (rcons [seq (j, j, I / nrm root x.+1) | j <- iota 0 x.+1] (x.+1, x.+1, I * (- x.+1%:R / nrm root x.+1)))
    = [seq (j, j) | j <- iota 0 x.+2].
    by rewrite /spos map_rcons -map_comp -[x.+2]addn1 iotaD map_cat cats1.
  by rewrite E => /mapP [j _ [-> ->]] /mapP [j' _ [-> ->]].
have := pair_mem n0 nx xn; case: (pair_at n x) => i j; rewrite mem_pairs => /andP [ij jn].
have ne : i <> j by move=> E; move: ij; rewrite E ltnn.
by case: (odd _); rewrite /spos /= !inE => /orP [] /eqP [E1 E2] /orP [] /eqP [E3 E4]; rewrite ?E2 ?E4 //; case: ne; rewrite -?E1 -?E3.
Qed.

(** *** Sums over the elements of a sparse matrix *)

Lemma sparse_sum : forall n (l : sparse S) (h : nat -> nat -> F), sparse_ok n l ->
  \sum_(e <- l) e.2 * h e.1.1 e.1.2 = \sum_(i < n) \sum_(j < n) mxr n n (to_matrix S l) i j * h i j.
Proof.
move=> n l h [ul hl]; symmetry.
transitivity (\sum_(i < n) \sum_(j < n) \sum_(e <- l) (if (i : nat, j : nat) == e.1 then e.2 * h i j else 0)).
  apply: eq_bigr => i _; apply: eq_bigr => j _; rewrite mxE to_matrixE // mulr_suml; apply: eq_bigr => e _.
  by case: ifP; rewrite ?mul0r.
transitivity (\sum_(e <- l) \sum_(i < n) \sum_(j < n) (if (i : nat, j : nat) == e.1 then e.2 * h i j else 0)).
  by rewrite [RHS]exchange_big; apply: eq_bigr => i _; exact: exchange_big.
rewrite big_seq [RHS]big_seq; apply: eq_bigr => [[[a b] v]] el /=.
have /andP [/= an bn] := hl (a, b) (map_f _ el).
rewrite (bigD1 (Ordinal an)) //= (bigD1 (Ordinal bn)) //= eqxx big1 ?addr0 => [|j jb]; last first.
  rewrite xpair_eqE; have -> : (j == b :> nat) = false by exact: negPf jb.
  by rewrite andbF.
rewrite big1 ?addr0 // => i ia; apply: big1 => j _.
by rewrite xpair_eqE; have -> : (i == a :> nat) = false by exact: negPf ia.
Qed.

Lemma tr2 : forall n (l : sparse S) (B : 'M[F]_n) (h : nat -> nat -> F), sparse_ok n l ->
  (forall i j : 'I_n, h i j = B j i) ->
  \sum_(e <- l) e.2 * h e.1.1 e.1.2 = \tr (mxr n n (to_matrix S l) *m B).
Proof.
move=> n l B h ok H; rewrite (sparse_sum h ok) /mxtrace; apply: eq_bigr => i _.
by rewrite mxE; apply: eq_bigr => j _; rewrite H.
Qed.

Lemma sum_fold : forall (l : sparse S) (g : nat -> nat -> F -> F) t,
  List.fold_left (fun t e => let '(a1, a2, v) := e in t + g a1 a2 v) l t = t + \sum_(e <- l) g e.1.1 e.1.2 e.2.
Proof.
move=> l g; elim: l => [|[[a b] v] l IH] t /=; first by rewrite big_nil addr0.
by rewrite IH big_cons addrA.
Qed.

Lemma sum2_fold : forall (l1 l2 : sparse S) (g : nat -> nat -> F -> nat -> nat -> F -> F),
  List.fold_left (fun t e1 => let '(a1, a2, v1) := e1 in
    List.fold_left (fun t e2 => let '(b1, b2, v2) := e2 in t + g a1 a2 v1 b1 b2 v2) l2 t) l1 0
  = \sum_(e1 <- l1) \sum_(e2 <- l2) g e1.1.1 e1.1.2 e1.2 e2.1.1 e2.1.2 e2.2.
Proof.
move=> l1 l2 g; rewrite -[RHS]add0r.
pose G t l := List.fold_left (fun t e1 => let '(a1, a2, v1) := e1 in
    List.fold_left (fun t e2 => let '(b1, b2, v2) := e2 in t + g a1 a2 v1 b1 b2 v2) l2 t) l t.
suff : forall t, G t l1 = t + \sum_(e1 <- l1) \sum_(e2 <- l2) g e1.1.1 e1.1.2 e1.2 e2.1.1 e2.1.2 e2.2 by apply.
elim: l1 => [|[[a b] v] l1 IH] t; first by rewrite big_nil addr0.
by rewrite big_cons addrA -(sum_fold l2 (g a b v)) -IH.
Qed.

Lemma omat_fill : forall m (g : nat -> nat -> F) (omat : nat -> nat -> F) i1 i2, (i1 < m)%N -> (i2 < m)%N ->
  loop 0 m (fun i1 omat => loop 0 m (fun i2 omat => set S omat i1 i2 (g i1 i2)) omat) omat i1 i2 = g i1 i2.
Proof.
move=> m g omat i1 i2 h1 h2; rewrite (loop_squares m (fun i1 i2 omat => set S omat i1 i2 (g i1 i2))).
have : (i1, i2) \in squares m by rewrite mem_squares h1.
elim/last_ind: (squares m) => // ps [a b] IH; rewrite mem_rcons inE foldl_rcons /= setE => h.
case: ifP => [/andP [/eqP -> /eqP ->]|ne] //; apply: IH.
by move: h; rewrite xpair_eqE ne.
Qed.

Lemma re_opp2 : forall x, - 2%:R * re x = 2%:R * re (- x).
Proof.
move=> x; rewrite -[in RHS]mulN1r (reZ P) ?rpredN ?real1 //; by rewrite mulN1r mulrN mulNr.
Qed.

Lemma gen_adj : forall n k (B : 'M[F]_n), (0 < n)%N -> (k < n * n - 1)%N ->
  - \tr (gen n k *m B) = \tr (adjoint cj (gen n k) *m B).
Proof.
move=> n k B n0 kn; have [-> _] := gen_anti f u P n0 kn; by rewrite mulNmx raddfN.
Qed.

Lemma bilinearE : forall n (w1 w2 : nat -> nat -> F) gens omat i1 i2, (0 < n)%N ->
  (forall k, (k < n * n - 1)%N -> gens k = glist n k) -> (i1 < n * n - 1)%N -> (i2 < n * n - 1)%N ->
  bilinear S re n w1 w2 gens omat i1 i2
  = 2%:R * re (\tr (adjoint cj (gen n i1) *m mxr n n w1 *m gen n i2 *m mxr n n w2)).
Proof.
move=> n w1 w2 gens omat i1 i2 n0 G h1 h2; rewrite /bilinear.
rewrite omat_fill // !G // sum2_fold intE.
rewrite -!mulmxA -gen_adj // -re_opp2; congr (_ * _).
rewrite -(@tr2 n (glist n i1) _ (fun i j => \sum_(e2 <- glist n i2) w1 j e2.1.1 * (e2.2 * w2 e2.1.2 i))).
- rewrite (re_sum P); apply: eq_bigr => e1 _; rewrite mulr_sumr (re_sum P); apply: eq_bigr => e2 _.
  by rewrite /= -!mulrA.
- exact: glist_ok.
move=> i j; rewrite mxE (eq_bigr (fun e2 : nat * nat * F => e2.2 * (w1 j e2.1.1 * w2 e2.1.2 i))); last first.
  by move=> e _; rewrite mulrCA.
rewrite (sparse_sum (fun a b => w1 j a * w2 b i) (glist_ok root I n0 h2)).
apply: eq_bigr => a _; rewrite !mxE mulr_sumr; apply: eq_bigr => b _.
by rewrite !mxE mulrCA.
Qed.

Lemma bilinear_productsE : forall n (w : nat -> nat -> F) prods omat i1 i2, (0 < n)%N ->
  (forall i j, (i < n * n - 1)%N -> (j < n * n - 1)%N ->
    prods i j = nz n (temp (glist n i : sparse S) (glist n j : sparse S))) ->
  (i1 < n * n - 1)%N -> (i2 < n * n - 1)%N ->
  bilinear_products S re n w prods omat i1 i2
  = 2%:R * re (\tr (adjoint cj (gen n i1) *m mxr n n w *m gen n i2)).
Proof.
move=> n w prods omat i1 i2 n0 G h1 h2; rewrite /bilinear_products.
rewrite omat_fill // G // intE -!mulmxA -gen_adj // -re_opp2; congr (_ * _).
rewrite (sum_fold _ (fun a1 a2 v => re (v * w a2 a1))) add0r -(re_sum P) (@tr2 n _ (mxr n n w) (fun i j => w j i)).
- rewrite nz_matrix (temp_mul f u (glist_ok root I n0 h2) (glist_ok root I n0 h1)) -!/(gen n _).
  by rewrite -mulmxA mxtrace_mulC mulmxA.
- exact: nz_ok.
by move=> i j; rewrite mxE.
Qed.

Lemma bilinear_arrayE : forall n (w : nat -> nat -> nat -> nat -> F) gens omat i1 i2, (0 < n)%N ->
  (forall k, (k < n * n - 1)%N -> gens k = glist n k) -> (i1 < n * n - 1)%N -> (i2 < n * n - 1)%N ->
  bilinear_array S re n w gens omat i1 i2
  = 2%:R * re (\sum_(k < n) \sum_(l < n) \tr (adjoint cj (gen n i1) *m mxr n n (w k l)) * gen n i2 k l).
Proof.
move=> n w gens omat i1 i2 n0 G h1 h2; rewrite /bilinear_array.
rewrite omat_fill // !G // sum2_fold intE.
under [in RHS]eq_bigr => k _ do under eq_bigr => l _ do rewrite -gen_adj // mulNr.
under [in RHS]eq_bigr => k _ do rewrite sumrN.
rewrite sumrN -re_opp2; congr (_ * _).
under [in RHS]eq_bigr => k _ do under eq_bigr => l _ do rewrite mulrC.
rewrite -(sparse_sum (fun k l => \tr (gen n i1 *m mxr n n (w k l))) (glist_ok root I n0 h2)) exchange_big (re_sum P).
apply: eq_bigr => e2 _.
rewrite -(@tr2 n (glist n i1) _ (fun i j => w e2.1.1 e2.1.2 j i)); last by move=> i j; rewrite mxE.
  by rewrite mulr_sumr (re_sum P); apply: eq_bigr => e1 _; rewrite /= mulrC.
exact: glist_ok.
Qed.

(** The list of products. *)
Lemma products_ok : forall n gens, (0 < n)%N -> (forall k, (k < n * n - 1)%N -> gens k = glist n k) ->
  exists prods, generator_product_list S n gens (fun _ _ => [::]) = Some prods /\
    forall i j, (i < n * n - 1)%N -> (j < n * n - 1)%N ->
      prods i j = nz n (temp (glist n i : sparse S) (glist n j : sparse S)).
Proof.
move=> n gens n0 G; have sz : forall a b : nat, (size (@nil (nat * nat * F)) <= n)%N by [].
have := @product_listE _ f u n gens (fun _ _ => [::]) sz.
case: ifP => [_|/negP []]; last first.
  apply/allP => [[i j]]; rewrite mem_squares => /andP [hi hj].
  by rewrite /fits /= add0n !G //; apply: nz_size; apply: glist_rowwise.
move=> [prods [E H]]; exists prods; split=> // i j hi hj.
by rewrite H mem_squares hi hj !G.
Qed.

(** A second call with the same array stores behind its end. *)
Lemma products_twice : forall n gens prods, (1 < n)%N -> (forall k, (k < n * n - 1)%N -> gens k = glist n k) ->
  generator_product_list S n gens (fun _ _ => [::]) = Some prods ->
  generator_product_list S n gens prods = None.
Proof.
move=> n gens prods n1 G E; have n0 := ltnW n1.
have [p' [E' H]] := products_ok n0 G; move: E' H; rewrite E => - [<-] H.
have sz0 : forall a b : nat, (size (@nil (nat * nat * F)) <= n)%N by [].
have := @product_listE _ f u n gens (fun _ _ => [::]) sz0.
case: ifP; last by rewrite E.
move=> /allP A [p2]; rewrite E => - [[<-] H2].
have sz : forall a b, (size (prods a b : seq (nat * nat * F)) <= n)%N.
  move=> a b; rewrite H2; case: ifP => // ab; by have := A _ ab; rewrite /fits.
have := product_listE gens sz; case: ifP => // /allP B _; exfalso.
pose k := (n - 2)%N.
have kn1 : (k < n - 1)%N by rewrite /k ltn_sub2l.
have kn : (k < n * n - 1)%N by apply: leq_trans kn1 _; rewrite leq_sub2r // leq_pmulr.
have kS : (k.+1 = n - 1)%N by rewrite /k -subSn // subSS.
have := B (k, k); rewrite mem_squares kn => /(_ isT); rewrite /fits /= H // !G //.
have -> : size (nz n (temp (glist n k : sparse S) (glist n k : sparse S))) = n.
  have d0 : forall r, (r < n)%N -> temp (glist n k : sparse S) (glist n k : sparse S) r r != 0.
    move=> r rn; have := temp_mul f u (glist_ok root I n0 kn) (glist_ok root I n0 kn).
    move=> /matrixP /(_ (Ordinal rn) (Ordinal rn)); rewrite mxE => ->.
    rewrite -/(gen n k).
    have -> : gen n k = gen n (n - 1 - 1)%N by congr gen; rewrite /k -subnDA.
    rewrite gen_diag ?subn_gt0 ?ltn_subrL ?n0 // mulmx_diag !mxE eqxx mulr1n /=.
    have q0 : (nrm root (n - 1))^-1 != 0 by rewrite invr_eq0 lt0r_neq0 // (nrm_gt0 P) // subn_gt0.
    have i0 := I0 P.
    have v0 : (n - 1)%:R != 0 :> F by rewrite pnatr_eq0 -lt0n subn_gt0.
    case: ltnP => [_|h]; first by rewrite !mulf_neq0.
    have -> : (r == n - 1)%N by rewrite eqn_leq h andbT -ltnS subn1 prednK.
    by rewrite !mulf_neq0 // oppr_eq0.
  apply/eqP; rewrite eqn_leq nz_size; [|exact: glist_rowwise|exact: glist_rowwise].
  rewrite /nz size_map -[X in (X <= _)%N](size_iota 0) -(size_map (fun r : nat => (r, r))).
  apply: uniq_leq_size; first by rewrite map_inj_uniq ?iota_uniq // => a b [].
  move=> p /mapP [r]; rewrite mem_iota add0n => /andP [_ rn] ->.
  by rewrite mem_filter mem_squares rn d0.
by rewrite leqNgt -[X in (X < _)%N]addn0 ltn_add2l n0.
Qed.

End Forms.
