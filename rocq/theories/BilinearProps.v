(** Products of generators of SU(N) and bilinear forms. *)
Set Warnings "-notation-overridden,-ambiguous-paths".
From mathcomp Require Import all_ssreflect all_algebra.
From Verif Require Import LinalgModel LinalgSpec MatrixModel MatrixSpec MatrixProofs1 MatrixProps EigenSpec EigenProofs1
  EigenProofs2 EigenProps SuModel SuSpec AlgebraModel AlgebraSpec AlgebraProofs2 AlgebraProofs3 AlgebraProofs4
  AlgebraProofs5 AlgebraProps BilinearModel BilinearProofs1.
Set Implicit Arguments.
Unset Strict Implicit.
Unset Printing Implicit Defensive.
Import Order.TTheory GRing.Theory Num.Theory.
Local Open Scope ring_scope.

(** C74: the list of the products of two generators, filled from empty arrays,
    never stores behind the end of an array of N elements, and holds the
    products. *)
Theorem C74_products : forall (F : numFieldType) (f : F -> F) (u : F) (cj : {rmorphism F -> F})
    (re im root : F -> F) (I : F), complex_parts cj re im root I ->
  forall n before gens, (0 < n)%N -> generator_list (field_scalars f u) root I n before = Some gens ->
  exists prods, generator_product_list (field_scalars f u) n gens (fun _ _ => [::]) = Some prods /\
  forall i j, (i < n * n - 1)%N -> (j < n * n - 1)%N ->
    mxr n n (to_matrix (field_scalars f u) (prods i j))
    = mxr n n (to_matrix (field_scalars f u) (gens i)) *m mxr n n (to_matrix (field_scalars f u) (gens j)).
Proof.
move=> F f u cj re im root I P n before gens n0 G.
have [gens' [G' H]] := generator_listE P before n0; move: G'; rewrite G => - [E]; rewrite E.
have [prods [E1 H1]] := @products_ok F f u root I n _ n0 H; exists prods; split=> // i j hi hj.
by rewrite H1 // nz_matrix !H // temp_mul //; apply: glist_ok.
Qed.
Print Assumptions C74_products.

(** An array that is filled a second time overflows: generator_product_list does
    not empty it before. *)
Theorem C74_reuse_refuted : forall (F : numFieldType) (f : F -> F) (u : F) (cj : {rmorphism F -> F})
    (re im root : F -> F) (I : F), complex_parts cj re im root I ->
  forall n before gens prods, (1 < n)%N -> generator_list (field_scalars f u) root I n before = Some gens ->
  generator_product_list (field_scalars f u) n gens (fun _ _ => [::]) = Some prods ->
  generator_product_list (field_scalars f u) n gens prods = None.
Proof.
move=> F f u cj re im root I P n before gens prods n1 G.
have [gens' [G' H]] := generator_listE P before (ltnW n1); move: G'; rewrite G => - [E]; rewrite E.
exact: (products_twice P).
Qed.
Print Assumptions C74_reuse_refuted.

(** The bilinear forms: 2 Re tr(l_i^+ w1 l_j w2), and with the list of the
    products 2 Re tr(l_i^+ w l_j). *)
Theorem C74_bilinear : forall (F : numFieldType) (f : F -> F) (u : F) (cj : {rmorphism F -> F})
    (re im root : F -> F) (I : F), complex_parts cj re im root I ->
  forall n before gens prods, (0 < n)%N -> generator_list (field_scalars f u) root I n before = Some gens ->
  generator_product_list (field_scalars f u) n gens (fun _ _ => [::]) = Some prods ->
  let G k : 'M[F]_n := mxr n n (to_matrix (field_scalars f u) (gens k)) in
  forall (w1 w2 omat : nat -> nat -> F) i j, (i < n * n - 1)%N -> (j < n * n - 1)%N ->
  bilinear (field_scalars f u) re n w1 w2 gens omat i j
    = 2%:R * re (\tr (adjoint cj (G i) *m mxr n n w1 *m G j *m mxr n n w2)) /\
  bilinear_products (field_scalars f u) re n w1 prods omat i j
    = 2%:R * re (\tr (adjoint cj (G i) *m mxr n n w1 *m G j)).
Proof.
move=> F f u cj re im root I P n before gens prods n0 G.
have [gens' [G' H]] := generator_listE P before n0; move: G'; rewrite G => - [E]; rewrite -{}E {gens'} in H *.
move=> GP Gm w1 w2 omat i j hi hj; rewrite /Gm !H //; split.
  by rewrite (bilinearE P).
apply: (bilinear_productsE P) => // a b ha hb.
have [p' [GP' H']] := @products_ok F f u root I n _ n0 H; move: GP'; rewrite GP => - [->].
exact: H'.
Qed.
Print Assumptions C74_bilinear.

(** The form with an array of matrices: 2 Re sum_kl tr(l_i^+ w[k][l]) (l_j)_kl. *)
Theorem C74_array : forall (F : numFieldType) (f : F -> F) (u : F) (cj : {rmorphism F -> F})
    (re im root : F -> F) (I : F), complex_parts cj re im root I ->
  forall n before gens, (0 < n)%N -> generator_list (field_scalars f u) root I n before = Some gens ->
  let G k : 'M[F]_n := mxr n n (to_matrix (field_scalars f u) (gens k)) in
  forall (w : nat -> nat -> nat -> nat -> F) (omat : nat -> nat -> F) i j,
  (i < n * n - 1)%N -> (j < n * n - 1)%N ->
  bilinear_array (field_scalars f u) re n w gens omat i j
    = 2%:R * re (\sum_(k < n) \sum_(l < n) \tr (adjoint cj (G i) *m mxr n n (w k l)) * G j k l).
Proof.
move=> F f u cj re im root I P n before gens n0 G.
have [gens' [G' H]] := generator_listE P before n0; move: G'; rewrite G => - [E]; rewrite -{}E {gens'} in H *.
by move=> Gm w omat i j hi hj; rewrite /Gm !H // (bilinear_arrayE P).
Qed.
Print Assumptions C74_array.

(** The comment in the code has the element (l_j)_lk instead; this is not what
    is computed. *)
Theorem C74_array_comment_refuted : forall (F : numFieldType) (f : F -> F) (u : F) (cj : {rmorphism F -> F})
    (re im root : F -> F) (I : F), complex_parts cj re im root I ->
  forall before gens, generator_list (field_scalars f u) root I 2 before = Some gens ->
  let G k : 'M[F]_2 := mxr 2 2 (to_matrix (field_scalars f u) (gens k)) in
  exists (w : nat -> nat -> nat -> nat -> F) i j, [/\ (i < 3)%N, (j < 3)%N & forall omat : nat -> nat -> F,
  bilinear_array (field_scalars f u) re 2 w gens omat i j
    <> 2%:R * re (\sum_(k < 2) \sum_(l < 2) \tr (adjoint cj (G i) *m mxr 2 2 (w k l)) * G j l k)].
Proof.
move=> F f u cj re im root I P before gens G Gm.
have C : complex_numbers cj re root by case: P.
pose S := field_scalars f u.
pose l1 := to_matrix S (gens 1%N).
pose w (k l : nat) : nat -> nat -> F := if (k == 0%N) && (l == 1%N) then l1 else fun _ _ => 0.
exists w, 1%N, 1%N; split=> // omat.
rewrite (C74_array P _ G) // -/Gm.
have [gens' [G' H]] := generator_listE P before (isT : (0 < 2)%N); move: G'; rewrite G => - [E]; rewrite -{}E {gens'} in H *.
have G1 : Gm 1%N = gen f u root I 2 1 by rewrite /Gm H.
have tw : forall k l : 'I_2, \tr (adjoint cj (Gm 1%N) *m mxr 2 2 (w k l))
    = if (k == 0%N :> nat) && (l == 1%N :> nat) then 2%:R^-1 else 0.
  move=> k l; rewrite /w; case: ifP => _.
    have -> : mxr 2 2 l1 = Gm 1%N by [].
    by rewrite G1 (gen_ortho f u P) // eqxx div1r.
  have -> : mxr 2 2 (fun _ _ => 0) = 0 :> 'M[F]_2 by apply/matrixP => a b; rewrite !mxE.
  by rewrite mulmx0 raddf0.
have [_ _ g1 _] := @gen_pair F f u root I 2 ord0 ord_max isT.
have gE : Gm 1%N = 2%:R^-1 *: (delta_mx ord0 ord_max - delta_mx ord_max ord0) by rewrite G1 -g1.
rewrite -/(Gm 1%N) !big_ord_recr !big_ord0 !tw /= !mul0r !add0r !addr0 gE !mxE /=.
rewrite mulr0n mulr1n subr0 sub0r mulr1 mulrN1.
have r4 : (2%:R^-1 * 2%:R^-1 : F) \is Num.real by rewrite rpredM ?realV ?realn.
rewrite mulrN (re_fix C) ?(cj_real C r4) // (re_fix C); last by rewrite rmorphN (cj_real C r4).
have t0 : 2%:R != 0 :> F by rewrite pnatr_eq0.
rewrite mulrN mulrA mulfV // mul1r => /eqP; rewrite -subr_eq0 opprK -mulr2n -[_ *+ 2]mulr_natr mulVf //.
by rewrite oner_eq0.
Qed.
Print Assumptions C74_array_comment_refuted.

(** SU(2) computed; w1 and w2 are the unit matrix. *)
Example C74_example :
  match generator_list gauss groot (0, 1) 2 (fun _ => [::]) with
  | Some gens => match generator_product_list gauss 2 gens (fun _ _ => [::]) with
    | Some prods =>
      let one (i j : nat) : rat * rat := if i == j then (1, 0) else (0, 0) in
      let r := bilinear gauss (fun x => (x.1, 0)) 2 one one gens (fun _ _ => (0, 0)) in
      [&& prods 0%N 0%N == [:: (0%N, 0%N, (- (1%:Q / 4%:Q), 0)); (1%N, 1%N, (- (1%:Q / 4%:Q), 0))],
          r 0%N 0%N == (1, 0), r 0%N 1%N == (0, 0), r 1%N 1%N == (1, 0) & r 2%N 1%N == (0, 0)]
    | None => false
    end
  | None => false
  end.
Proof. by vm_compute. Qed.
