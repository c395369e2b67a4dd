(** C70 and C71: singular value decomposition. *)
Set Warnings "-notation-overridden,-ambiguous-paths".
From mathcomp Require Import all_ssreflect all_algebra all_fingroup.
From Verif Require Import LinalgModel LinalgSpec LinalgProofs1 LinalgProofs3 LinalgProofs4 MatrixModel MatrixSpec
  MatrixProofs1 MatrixProps SortModel EigenModel EigenSpec EigenProofs1 EigenProofs2 EigenProofs3 EigenProofs4
  EigenProofs5 EigenProofs6 EigenProofs7 EigenProps.
Set Implicit Arguments.
Unset Strict Implicit.
Unset Printing Implicit Defensive.
Import Order.TTheory GRing.Theory Num.Theory.
Local Open Scope ring_scope.

Local Arguments MatrixModel.of_nat : simpl never.

(** C70, for every matrix: V is unitary, and the numbers s, in the order asked for,
    are the norms of the columns of A V.  The sum of the squares of the products
    of different columns has been multiplied by 1 - 2 / (n (n - 1)) or less with
    each rotation, and unless the number of rotations has reached its limit, none
    of these products is larger than eps s_k s_l.  The columns of U are those of
    A V divided by s. *)
Theorem C70_columns : forall (F : numFieldType) (f : F -> F) (u : F) (cj : {rmorphism F -> F})
    (re root : F -> F) (eps : F), complex_numbers cj re root -> 0 <= eps ->
  forall n ord (A : nat -> nat -> F), (1 < n)%N ->
  exists s U V rot, svd_pivot (field_scalars f u) cj re root eps n ord A = Some (s, U, V, rot) /\
  let W := mxr n n A *m mxr n n V in
  let G := adjoint cj W *m W in
  [/\ unitary cj (mxr n n V) /\ (forall i : 'I_n, 0 <= s i /\ G i i = s i ^+ 2),
      forall i j, (i < j < n)%N ->
        match ord with unsorted => True | ascending => s i <= s j | descending => s j <= s i end,
      (rot <= 100 * (n * n))%N /\ offdiagonal G <=
        (1 - 2%:R / (n * (n - 1))%N%:R) ^+ rot * offdiagonal (adjoint cj (mxr n n A) *m mxr n n A),
      (rot < 100 * (n * n))%N -> exists k l : 'I_n, k != l /\
        forall i j : 'I_n, i != j -> `|G i j| <= eps * (s k * s l) &
      forall k i : 'I_n, U k i = if s i == 0 then u else W k i / s i].
Proof.
move=> F f u cj re root eps C e0 n ord A n1; rewrite /svd_pivot.
set S := field_scalars f u.
have n0 := ltnW n1.
have I0 : pivot_state cj (mxr n n A) 0 A (of_scalar S n (one S)) (op_mul S n n n (dagger S cj n n A) A).
  split; first exact: (unit_unitary f u).
  - by rewrite of_scalarE mulmx1.
  - move=> i j iN jN; have /matrixP /(_ (Ordinal iN) (Ordinal jN)) : mxr n n (op_mul S n n n (dagger S cj n n A) A)
        = mxr n n (gram cj n A) by rewrite op_mul_mx // daggerE mxr_gram.
    by rewrite !mxE.
  by rewrite expr0 mul1r mxr_gram.
have [M [V [rot [B [-> [UV E _ O] /andP [_ R] Cv]]]]] := pivot_ok f u C n1 e0 (Nat.mul 100 (Nat.mul n n)) I0.
have := result_ok f u C ord rot UV E.
case: (finish _ _ _ _ _ _ _) => [[[s U] W] r] [-> [p [[UW Sq] GE Gs Es EU]]].
exists s, U, W, rot; split=> //; split=> //.
- split=> //; rewrite (@permuted_offdiagonal _ _ p (mxr n n (gram cj n M))) // => i j.
  by rewrite GE mxE.
- move/Cv => [k [l [kln L]]]; have [kl ln] := andP kln; have kn := ltn_trans kl ln.
  exists ((p^-1)%g (Ordinal kn)), ((p^-1)%g (Ordinal ln)); rewrite (inj_eq perm_inj) -val_eqE /= ltn_eqF //.
  split=> // i j ij; rewrite GE !Es !permKV; apply: L => //.
  by rewrite val_eqE (inj_eq perm_inj).
Qed.
Print Assumptions C70_columns.

(** For an invertible matrix, A = U S V^dagger, and U is unitary except for the
    products of different columns. *)
Theorem C70_decomposition : forall (F : numFieldType) (f : F -> F) (u : F) (cj : {rmorphism F -> F})
    (re root : F -> F) (eps : F), complex_numbers cj re root -> 0 <= eps ->
  forall n ord (A : nat -> nat -> F), (1 < n)%N -> mxr n n A \in unitmx ->
  exists s U V rot, svd_pivot (field_scalars f u) cj re root eps n ord A = Some (s, U, V, rot) /\
  let D := adjoint cj (mxr n n U) *m mxr n n U in
  [/\ mxr n n A = mxr n n U *m diag_mx (\row_i s i) *m adjoint cj (mxr n n V),
      unitary cj (mxr n n V),
      forall i : 'I_n, 0 < s i /\ D i i = 1 &
      (rot < 100 * (n * n))%N -> exists k l : 'I_n, k != l /\
        forall i j : 'I_n, i != j -> `|D i j| * (s i * s j) <= eps * (s k * s l)].
Proof.
move=> F f u cj re root eps C e0 n ord A n1 IA.
have [s [U [V [rot [-> [[UV Gs] _ _ Cv EU]]]]]] := C70_columns f u C e0 ord A n1.
exists s, U, V, rot; split=> //.
have [s0 AE DE] := @invertible_ok F f u cj re root C n A U V s UV Gs EU IA.
split=> // [i|/Cv [k [l [kl L]]]].
  by split=> //; rewrite DE (proj2 (Gs i)) expr2 divff // mulf_neq0 // gt_eqF.
exists k, l; split=> // i j ij; rewrite DE normrM normfV [`|s i * s j|]gtr0_norm ?mulr_gt0 //.
by rewrite divfK ?L // gt_eqF // mulr_gt0.
Qed.
Print Assumptions C70_decomposition.

(** As the code stands, a matrix that is not invertible may have a column of A V
    that is zero, and then the column of U is the quotient of zero and zero: U is
    not unitary and A is not U S V^dagger. *)
Theorem C70_singular_refuted : forall (F : numFieldType) (f : F -> F) (u : F) (cj : {rmorphism F -> F})
    (re root : F -> F) (eps : F), complex_numbers cj re root -> 0 <= eps ->
  forall n ord (A : nat -> nat -> F), (1 < n)%N -> mxr n n A = 0 ->
  exists s U V rot, svd_pivot (field_scalars f u) cj re root eps n ord A = Some (s, U, V, rot) /\
  forall k i : 'I_n, s i = 0 /\ U k i = unassigned (field_scalars f u).
Proof.
move=> F f u cj re root eps C e0 n ord A n1 A0.
have [s [U [V [rot [-> [[UV Gs] _ _ Cv EU]]]]]] := C70_columns f u C e0 ord A n1.
exists s, U, V, rot; split=> // k i.
have si : s i = 0.
  have [_] := Gs i; rewrite A0 mul0mx mulmx0 mxE => /esym /eqP; rewrite expf_eq0 /= => /eqP //.
by rewrite EU si eqxx.
Qed.
Print Assumptions C70_singular_refuted.

Theorem C70_one_by_one_refuted : forall (S : scalars) (cj re root : num S -> num S) (eps : num S) ord A,
  svd_pivot S cj re root eps 1 ord A = None.
Proof. by []. Qed.
Print Assumptions C70_one_by_one_refuted.

(** Singular values 5 and 10; the square roots that occur are rational. *)
Definition more_roots (x : rat) : rat :=
  if x == 36%:R * 36%:R then 36%:R else if x == 75%:R * 75%:R then 75%:R else
  if x == 25%:R / 16%:R then 5%:R / 4%:R else if x == 25%:R then 5%:R else
  if x == 100%:R then 10%:R else 0.

Example C70_example :
  match svd_pivot rat_scalars id id more_roots (1 / 100%:R) 2 descending
    (rows [:: [:: 4%:Z; - 3%:Z]; [:: 6%:Z; 8%:Z]]) with
  | Some (s, U, V, rot) => [&& s 0 == 10%:Q, s 1 == 5%:Q, rot == 1,
      U 0 0 == 0%:Q, U 0 1 == 1%:Q, U 1 0 == 1%:Q, U 1 1 == 0%:Q,
      V 0 0 == 3%:Q / 5%:Q, V 0 1 == 4%:Q / 5%:Q, V 1 0 == 4%:Q / 5%:Q & V 1 1 == - (3%:Q / 5%:Q)]%N
  | None => false
  end.
Proof. by vm_compute. Qed.

Example C70_hypothesis : mxr 2 2 (rows [:: [:: 4%:Z; - 3%:Z]; [:: 6%:Z; 8%:Z]]) \in unitmx.
Proof.
rewrite unitmxE (expand_det_row _ ord0) !big_ord_recl big_ord0 /cofactor !det_mx11 !mxE.
by vm_compute.
Qed.

(** C71, for every matrix and whatever the variable Bpp is when it has not been
    initialised: V is unitary, and the numbers s, in the order asked for, are the
    norms of the columns of A V.  The columns of U are those of A V divided by s. *)
Theorem C71_columns : forall (F : numFieldType) (f : F -> F) (u : F) (cj : {rmorphism F -> F})
    (re root stale : F -> F) (eps : F), complex_numbers cj re root -> 0 <= eps ->
    (forall x, 0 <= x -> 0 <= stale x) ->
  forall n ord (A : nat -> nat -> F),
  exists s U V rot, svd (field_scalars f u) cj root stale eps n ord A = Some (s, U, V, rot) /\
  let W := mxr n n A *m mxr n n V in
  let G := adjoint cj W *m W in
  [/\ unitary cj (mxr n n V), forall i : 'I_n, 0 <= s i /\ G i i = s i ^+ 2,
      forall i j, (i < j < n)%N ->
        match ord with unsorted => True | ascending => s i <= s j | descending => s j <= s i end &
      forall k i : 'I_n, U k i = if s i == 0 then u else W k i / s i].
Proof.
move=> F f u cj re root stale eps C e0 st0 n ord A; rewrite /svd.
set S := field_scalars f u; set st := mkSweep _ _ _ _ _.
have G0 : good cj (mxr n n A) st.
  by split; [exact: (unit_unitary f u)|rewrite /= of_scalarE mulmx1].
have [st' [-> [UV E] _]] := sweeps_good C e0 st0 G0 (isT : 0 < (_).+2)%N (ltac:(by rewrite addn0) : limit n < (Nat.mul 100 (Nat.mul n n)).+2 + srot st)%N.
have := result_ok f u C ord (srot st') UV E.
case: (finish _ _ _ _ _ _ _) => [[[s U] W] r] [-> [p [[UW Sq] GE Gs Es EU]]].
by exists s, U, W, (srot st').
Qed.
Print Assumptions C71_columns.

(** If the uninitialised variable keeps the value it had in the turn before, and
    the limit of 100 n^2 has not been reached, then the columns of A V are
    orthogonal to each other with the relative tolerance eps. *)
Theorem C71_converged : forall (F : numFieldType) (f : F -> F) (u : F) (cj : {rmorphism F -> F})
    (re root stale : F -> F) (eps : F), complex_numbers cj re root -> 0 <= eps ->
    (forall x, stale x = x) ->
  forall n ord (A : nat -> nat -> F) s U V rot,
  svd (field_scalars f u) cj root stale eps n ord A = Some (s, U, V, rot) -> (rot < 100 * (n * n))%N ->
  let W := mxr n n A *m mxr n n V in
  forall i j : 'I_n, i != j -> `|(adjoint cj W *m W) i j| <= eps * (s i * s j).
Proof.
move=> F f u cj re root stale eps C e0 sK n ord A s U W rot; rewrite /svd.
have st0 : forall x, 0 <= x -> 0 <= stale x by move=> x; rewrite sK.
set S := field_scalars f u; set st := mkSweep _ _ _ _ _.
have G0 : good cj (mxr n n A) st.
  by split; [exact: (unit_unitary f u)|rewrite /= of_scalarE mulmx1].
have [st' [Es [UV E] Lm]] := sweeps_good C e0 st0 G0 (isT : 0 < (_).+2)%N
  (ltac:(by rewrite addn0) : limit n < (Nat.mul 100 (Nat.mul n n)).+2 + srot st)%N.
have Ck := sweeps_checked C e0 sK (isT : scont st) Es.
rewrite Es => [[Ef] lt].
have := result_ok f u C ord (srot st') UV E; rewrite Ef => -[Er [p [_ GE _ Ss _]]] i j ij.
have ct : scont st' = false.
  by move: Lm; rewrite -Er leqNgt lt orbF => /negbTE.
have {}Ck := Ck ct; rewrite GE !Ss.
have : p i != p j by rewrite (inj_eq perm_inj).
rewrite -val_eqE neq_ltn => /orP [l|l]; first by apply: Ck => //; rewrite l /=.
by rewrite -(norm_cj C) (gram_conj C) [root _ * root _]mulrC; apply: Ck => //; rewrite l /=.
Qed.
Print Assumptions C71_converged.

(** For an invertible matrix, A = U S V^dagger.  If the uninitialised variable keeps
    the value it had in the turn before, and the limit of 100 n^2 has not been
    reached, then U^dagger U differs from the unit matrix by eps at most. *)
Theorem C71_decomposition : forall (F : numFieldType) (f : F -> F) (u : F) (cj : {rmorphism F -> F})
    (re root stale : F -> F) (eps : F), complex_numbers cj re root -> 0 <= eps ->
    (forall x, 0 <= x -> 0 <= stale x) ->
  forall n ord (A : nat -> nat -> F), mxr n n A \in unitmx ->
  exists s U V rot, svd (field_scalars f u) cj root stale eps n ord A = Some (s, U, V, rot) /\
  let D := adjoint cj (mxr n n U) *m mxr n n U in
  [/\ mxr n n A = mxr n n U *m diag_mx (\row_i s i) *m adjoint cj (mxr n n V),
      unitary cj (mxr n n V),
      forall i : 'I_n, 0 < s i /\ D i i = 1 &
      (forall x, stale x = x) -> (rot < 100 * (n * n))%N ->
        forall i j : 'I_n, i != j -> `|D i j| <= eps].
Proof.
move=> F f u cj re root stale eps C e0 st0 n ord A IA.
have [s [U [V [rot [EE [UV Gs _ EU]]]]]] := C71_columns f u C e0 st0 n ord A.
exists s, U, V, rot; split=> //.
have [s0 AE DE] := @invertible_ok F f u cj re root C n A U V s UV Gs EU IA.
split=> // [i|Hs lt i j ij].
  by split=> //; rewrite DE (proj2 (Gs i)) expr2 divff // mulf_neq0 // gt_eqF.
rewrite DE normrM normfV [`|s i * s j|]gtr0_norm ?mulr_gt0 // ler_pdivr_mulr ?mulr_gt0 //.
exact: (C71_converged C e0 Hs EE lt ij).
Qed.
Print Assumptions C71_decomposition.


(** As the code stands, the variable may have any value: with a large one the first
    and the third column of this matrix are not made orthogonal. *)
Example C71_example :
  match svd rat_scalars id more_roots id (1 / 100%:R) 2 ascending
    (rows [:: [:: 4%:Z; - 3%:Z]; [:: 6%:Z; 8%:Z]]) with
  | Some (s, U, V, rot) => [&& s 0 == 5%:Q, s 1 == 10%:Q, rot == 2,
      U 0 0 == 1%:Q, U 0 1 == 0%:Q, U 1 0 == 0%:Q, U 1 1 == 1%:Q,
      V 0 0 == 4%:Q / 5%:Q, V 0 1 == 3%:Q / 5%:Q, V 1 0 == - (3%:Q / 5%:Q) & V 1 1 == 4%:Q / 5%:Q]%N
  | None => false
  end.
Proof. by vm_compute. Qed.

Lemma finish_unsorted : forall (F : numFieldType) (f : F -> F) (u : F) (cj : {rmorphism F -> F}) (re root : F -> F),
  complex_numbers cj re root -> forall n M V rot, exists s U,
  [/\ finish (field_scalars f u) root n unsorted M V rot = (s, U, V, rot),
      forall i, (i < n)%N -> s i = root (gram cj n M i i) &
      forall k i, (k < n)%N -> (i < n)%N -> U k i = quotient (field_scalars f u) (M k i) (s i)].
Proof.
move=> F f u cj re root C n M V rot; rewrite /finish; have := normalizeE f u C n M.
by case: (normalize (field_scalars f u) root n M) => U s [Hs HU]; exists s, U.
Qed.

Definition columns_103 (F : numFieldType) (i j : nat) : F :=
  nth 0 (nth [::] [:: [:: 1; 0; 3%:R]; [:: 0; 1; 0]; [:: 0; 0; 4%:R]] i) j.

Local Arguments squarenorm_vec : simpl never.
Local Arguments dot : simpl never.
Local Arguments mult_by_Givens_right : simpl never.
Local Arguments of_scalar : simpl never.

Theorem C71_uninitialised_refuted : forall (F : numFieldType) (f : F -> F) (u : F) (cj : {rmorphism F -> F})
    (re root : F -> F) (eps : F), complex_numbers cj re root -> 0 < eps -> eps < 3%:R / 5%:R ->
  exists (stale : F -> F) (A : nat -> nat -> F) s U V rot,
  [/\ forall x, 0 <= stale x, mxr 3 3 A \in unitmx,
      svd (field_scalars f u) cj root stale eps 3 unsorted A = Some (s, U, V, rot), (rot < 100 * (3 * 3))%N &
      exists i j : 'I_3, i != j /\ eps < `|(adjoint cj (mxr 3 3 U) *m mxr 3 3 U) i j|].
Proof.
move=> F f u cj re root eps C e0 e1.
pose stale := fun _ : F => (3%:R / eps) ^+ 2.
pose A := columns_103 F; set S := field_scalars f u.
have r0 : 0 <= 3%:R / eps by rewrite divr_ge0 ?ler0n // ltW.
have st0 : forall x, 0 <= stale x by move=> x; rewrite exprn_ge0.
pose st := mkSweep S A (of_scalar S 3 (one S)) 3 false.
have sq : forall v : nat -> F, squarenorm_vec S 3 v = `|v 0%N| ^+ 2 + `|v 1%N| ^+ 2 + `|v 2%N| ^+ 2.
  by move=> v; rewrite squarenorm_sum !big_ord_recr big_ord0 /= add0r.
have dt : forall v w : nat -> F, dot S cj 3 v w = cj (v 0%N) * w 0%N + cj (v 1%N) * w 1%N + cj (v 2%N) * w 2%N.
  move=> v w; rewrite /dot /= (loop_sum (fun k => cj (v k) * w k)) // add0r big_mkord.
  by rewrite !big_ord_recr big_ord0 /= add0r.
have d01 : dot S cj 3 (column S A 0) (column S A 1) = 0.
  by rewrite dt /column /= !rmorph0 !mul0r !mulr0 !addr0.
have d02 : dot S cj 3 (column S A 0) (column S A 2) = 3%:R.
  by rewrite dt /column /= !rmorph0 !mul0r !addr0 rmorph1 mul1r.
have d12 : dot S cj 3 (column S A 1) (column S A 2) = 0.
  by rewrite dt /column /= !rmorph0 !mul0r !mulr0 !addr0.
have q2 : squarenorm_vec S 3 (column S A 2) = 5%:R ^+ 2.
  rewrite sq /column /= normr0 !normr_nat expr0n /= addr0 -!natrX -natrD.
  by [].
have Z : forall x, 0 <= x -> (eps * root x < `|0 : F|) = false.
  by move=> x x0; rewrite normr0 le_gtF // mulr_ge0 ?(ltW e0) // (root_ge0 C).
have N0 : forall v, 0 <= squarenorm_vec S 3 v by move=> v; rewrite sq !addr_ge0 // exprn_ge0.
have Big : (eps * root (stale (squarenorm_vec S 3 (column S A 0)) * squarenorm_vec S 3 (column S A 2)) < `|3%:R : F|) = false.
  rewrite q2 /stale -exprMn (root_sqr C); last by rewrite (mulr_ge0 r0) ?ler0n.
  have -> : eps * (3%:R / eps * 5%:R) = 3%:R * 5%:R by rewrite mulrA mulrCA divff ?mulr1 // gt_eqF.
  by rewrite normr_nat le_gtF // -natrM ler_nat.
have EE : svd S cj root stale eps 3 unsorted A = Some (finish S root 3 unsorted A (of_scalar S 3 (one S)) 3).
  rewrite /svd; set fuel := Nat.mul 100 (Nat.mul 3 3).
  have -> : sweeps S cj root stale eps 3 fuel.+2 (mkSweep S A (of_scalar S 3 (one S)) 0 true) = Some st.
    have R0 : sweep_row S cj root stale eps 3 0 (mkSweep S A (of_scalar S 3 (one S)) 0 false)
      = mkSweep S A (of_scalar S 3 (one S)) 2 false.
      by rewrite /sweep_row /loop /= d01 Z ?mulr_ge0 //= d02 Big.
    have R1 : sweep_row S cj root stale eps 3 1 (mkSweep S A (of_scalar S 3 (one S)) 2 false) = st.
      by rewrite /sweep_row /loop /= d12 Z ?mulr_ge0.
    rewrite /sweeps -/sweeps [scont _]/= [srot _]/=.
    have -> : PeanoNat.Nat.ltb 0 fuel by [].
    rewrite [true && _]/= /loop.
    rewrite [List.fold_left _ _ _]/= R0 R1 /=.
    by [].
  by [].
have [s [U [EF Hs HU]]] := @finish_unsorted F f u cj re root C 3 A (of_scalar S 3 (one S)) 3.
have s0 : s 0%N = 1.
  rewrite Hs // /gram !big_ord_recr big_ord0 /= !rmorph0 !mul0r !addr0 add0r rmorph1 mul1r.
  by rewrite -[X in root X](expr1n _ 2) (root_sqr C) // ler01.
have s2 : s 2%N = 5%:R.
  rewrite Hs // /gram !big_ord_recr big_ord0 /= rmorph0 mul0r addr0 add0r !rmorph_nat -!natrM -natrD.
  have -> : (3 * 3 + 4 * 4 = 5 ^ 2)%N by [].
  by rewrite natrX (root_sqr C) // ler0n.
exists stale, A, s, U, (of_scalar S 3 (one S)), 3%N; split=> //; last 1 first.
- exists ord0, (Ordinal (isT : (2 < 3)%N)); split=> //.
  rewrite (gramE cj U) /gram !big_ord_recr big_ord0 /= !HU // /quotient s0 s2 /=.
  rewrite oner_eq0 pnatr_eq0 /A /= !mul0r !rmorph0 !mul0r !addr0 add0r divr1 rmorph1 mul1r.
  by rewrite ger0_norm // divr_ge0 ?ler0n.
- have trig : is_trig_mx (mxr 3 3 A)^T.
    by apply/is_trig_mxP => -[[|[|[|i]]] ?] [[|[|[|j]]] ?] //=; rewrite !mxE.
  by rewrite unitmxE -det_tr (det_trig trig) unitfE !big_ord_recr big_ord0 /= !mxE /= !mul1r pnatr_eq0.
- by rewrite EE EF.
Qed.
Print Assumptions C71_uninitialised_refuted.
