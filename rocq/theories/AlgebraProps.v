(** The Lie algebra of SU(N). *)
Set Warnings "-notation-overridden,-ambiguous-paths".
From mathcomp Require Import all_ssreflect all_algebra.
From Verif Require Import LinalgModel LinalgSpec MatrixModel MatrixSpec MatrixProofs1 MatrixProps EigenSpec EigenProofs2
  EigenProps SuModel SuSpec AlgebraModel AlgebraSpec AlgebraProofs2 AlgebraProofs3 AlgebraProofs4 AlgebraProofs5.
Set Implicit Arguments.
Unset Strict Implicit.
Unset Printing Implicit Defensive.
Import Order.TTheory GRing.Theory Num.Theory.
Local Open Scope ring_scope.

(** C73: generator_list writes N * N - 1 generators and never stores behind the
    end of the arrays.  As matrices they are antihermitean and traceless, and
    tr(l_k^+ l_m) is 1/2 for k = m and 0 otherwise.  The first N - 1 of them are
    diagonal: I / sqrt(2 i (i + 1)) times diag(1, .., 1, - i, 0, .., 0) with i
    ones.  Behind them come, for each pair i < j, the matrices (E_ij - E_ji) / 2
    and I (E_ij + E_ji) / 2. *)
Theorem C73_generators : forall (F : numFieldType) (f : F -> F) (u : F) (cj : {rmorphism F -> F})
    (re im root : F -> F) (I : F), complex_parts cj re im root I ->
  forall n (before : nat -> sparse (field_scalars f u)), (0 < n)%N ->
  exists gens, generator_list (field_scalars f u) root I n before = Some gens /\
  let G k : 'M[F]_n := mxr n n (to_matrix (field_scalars f u) (gens k)) in
  [/\ forall k, (k < n * n - 1)%N -> antihermitean cj (G k) /\ \tr (G k) = 0,
      forall k l, (k < n * n - 1)%N -> (l < n * n - 1)%N ->
        \tr (adjoint cj (G k) *m G l) = (k == l)%:R / 2%:R,
      forall i, (0 < i)%N -> (i < n)%N ->
        G (i - 1)%N = (I / root (2%:R * (i%:R * i.+1%:R))) *:
          diag_mx (\row_(j < n) (if (j < i)%N then 1 else if j == i :> nat then - i%:R else 0)) &
      forall i j : 'I_n, (i < j)%N -> exists k, [/\ (n - 1 <= k)%N, (k.+1 < n * n - 1)%N,
        G k = 2%:R^-1 *: (delta_mx i j - delta_mx j i) &
        G k.+1 = (I / 2%:R) *: (delta_mx i j + delta_mx j i)]].
Proof.
move=> F f u cj re im root I P n before n0.
have [gens [E H]] := generator_listE P before n0; exists gens; split=> // G.
have GE : forall k, (k < n * n - 1)%N -> G k = gen f u root I n k by move=> k kn; rewrite /G H.
split.
- by move=> k kn; rewrite GE //; apply: (gen_anti f u P).
- by move=> k l kn ln; rewrite !GE //; apply: (gen_ortho f u P).
- move=> i i0 hi; rewrite GE; last first.
    apply: (@leq_trans (n - 1)); first by rewrite ltn_sub2r // (leq_ltn_trans _ hi).
    by rewrite leq_sub2r // leq_pmulr.
  rewrite gen_diag //; apply/matrixP => r q; rewrite !mxE mulrnAr; congr (_ *+ _).
  case: ifP => _; first by rewrite mulr1.
  case: ifP => _; last by rewrite mulr0.
  by rewrite -[RHS]mulrA; congr (I * _); rewrite mulrC.
move=> i j ij; have [a b c d] := gen_pair f u root I ij; exists (pos n i j).
by split=> //; rewrite GE // (ltn_trans _ b).
Qed.
Print Assumptions C73_generators.

(** expand() is the sum of the components times the generators, an antihermitean
    traceless matrix, and expand_scaled() a multiple of it. *)
Theorem C73_expand : forall (F : numFieldType) (f : F -> F) (u : F) (cj : {rmorphism F -> F})
    (re im root : F -> F) (I : F), complex_parts cj re im root I ->
  forall n before gens, (0 < n)%N -> generator_list (field_scalars f u) root I n before = Some gens ->
  forall a : nat -> F, real_components (n * n - 1) a ->
  let E : 'M[F]_n := mxr n n (expand (field_scalars f u) cj root I n a) in
  [/\ E = \sum_(k < n * n - 1) a k *: mxr n n (to_matrix (field_scalars f u) (gens k)),
      antihermitean cj E, \tr E = 0 &
      forall s, s \is Num.real -> mxr n n (expand_scaled (field_scalars f u) cj root I s n a) = s *: E].
Proof.
move=> F f u cj re im root I P n before gens n0 G a R E.
have [A T] := expand_anti f u P n0 R.
split=> //; last by move=> s rs; apply: (expand_scaled_mx P).
rewrite /E (expand_sum f u P n0 R).
have [gens' [G' H]] := generator_listE P before n0.
move: G'; rewrite G => - [->]; by apply: eq_bigr => k _; rewrite /gen H.
Qed.
Print Assumptions C73_expand.

(** project_to_algebra gives the components 2 Re tr(l_k^+ A), real numbers. *)
Theorem C73_project : forall (F : numFieldType) (f : F -> F) (u : F) (cj : {rmorphism F -> F})
    (re im root : F -> F) (I : F), complex_parts cj re im root I ->
  forall n before gens, (0 < n)%N -> generator_list (field_scalars f u) root I n before = Some gens ->
  forall (A : nat -> nat -> F) k, (k < n * n - 1)%N ->
  let a := project_to_algebra (field_scalars f u) cj re im root n A in
  [/\ a k = 2%:R * re (\tr (adjoint cj (mxr n n (to_matrix (field_scalars f u) (gens k))) *m mxr n n A)),
      a k \is Num.real &
      forall s, project_to_algebra_scaled (field_scalars f u) cj re im root s n A k = s * a k].
Proof.
move=> F f u cj re im root I P n before gens n0 G A k kn a.
have [gens' [G' H]] := generator_listE P before n0.
split; last by move=> s; apply: (project_scaledE P).
  by move: G'; rewrite G => - [->]; rewrite H //; apply: (project_tr P).
exact: (project_real P).
Qed.
Print Assumptions C73_project.

(** The projection with a second result gives the same vector, and the sum of
    the absolute values of its components. *)
Theorem C73_norm : forall (F : numFieldType) (f : F -> F) (u : F) (cj : {rmorphism F -> F})
    (re im root : F -> F) (I : F), complex_parts cj re im root I ->
  forall n (A : nat -> nat -> F), (0 < n)%N ->
  let a := project_to_algebra (field_scalars f u) cj re im root n A in
  project_to_algebra_norm (field_scalars f u) cj re im root n A = (a, \sum_(k < n * n - 1) `|a k|).
Proof. by move=> F f u cj re im root I P n A n0; apply: (project_normE P). Qed.
Print Assumptions C73_norm.

(** Projection and expansion: the components come back, and a matrix becomes its
    antihermitean traceless part, so that a matrix of the algebra is not changed. *)
Theorem C73_inverse : forall (F : numFieldType) (f : F -> F) (u : F) (cj : {rmorphism F -> F})
    (re im root : F -> F) (I : F), complex_parts cj re im root I ->
  forall n, (0 < n)%N ->
  (forall (a : nat -> F) k, real_components (n * n - 1) a -> (k < n * n - 1)%N ->
    project_to_algebra (field_scalars f u) cj re im root n (expand (field_scalars f u) cj root I n a) k = a k) /\
  forall A : nat -> nat -> F,
    let B := mxr n n (expand (field_scalars f u) cj root I n
               (project_to_algebra (field_scalars f u) cj re im root n A)) in
    B = algebra_part cj (mxr n n A) /\
    (antihermitean cj (mxr n n A) -> \tr (mxr n n A) = 0 -> B = mxr n n A).
Proof.
move=> F f u cj re im root I P n n0; split=> [a k R kn|A B]; first exact: (project_expand f u P).
have E : B = algebra_part cj (mxr n n A) by apply: (expand_project P).
by split=> // HA TA; rewrite E part_id.
Qed.
Print Assumptions C73_inverse.

(** dot() is the trace of the product of the matrices. *)
Theorem C73_dot : forall (F : numFieldType) (f : F -> F) (u : F) (cj : {rmorphism F -> F})
    (re im root : F -> F) (I : F), complex_parts cj re im root I ->
  forall n (a b : nat -> F), (0 < n)%N -> real_components (n * n - 1) a -> real_components (n * n - 1) b ->
  algebra_dot (field_scalars f u) n a b =
    \tr (adjoint cj (mxr n n (expand (field_scalars f u) cj root I n a))
         *m mxr n n (expand (field_scalars f u) cj root I n b)).
Proof. by move=> F f u cj re im root I P n a b n0 Ra Rb; apply: (dot_tr f u P). Qed.
Print Assumptions C73_dot.

(** Conjugation with a unitary matrix: the matrices are U^+ E U and U E U^+, the
    one undoes the other, and the scalar product is not changed. *)
Theorem C73_conjugation : forall (F : numFieldType) (f : F -> F) (u : F) (cj : {rmorphism F -> F})
    (re im root : F -> F) (I : F), complex_parts cj re im root I ->
  forall n (U : nat -> nat -> F), (0 < n)%N -> unitary cj (mxr n n U) ->
  let Ex a : 'M[F]_n := mxr n n (expand (field_scalars f u) cj root I n a) in
  let R := right_conjugation (field_scalars f u) cj re im root I n U in
  let L := left_conjugation (field_scalars f u) cj re im root I n U in
  forall a b : nat -> F, real_components (n * n - 1) a -> real_components (n * n - 1) b ->
  [/\ Ex (R a) = adjoint cj (mxr n n U) *m Ex a *m mxr n n U,
      Ex (L a) = mxr n n U *m Ex a *m adjoint cj (mxr n n U),
      forall k, (k < n * n - 1)%N -> L (R a) k = a k /\ R (L a) k = a k,
      algebra_dot (field_scalars f u) n (R a) (R b) = algebra_dot (field_scalars f u) n a b &
      algebra_dot (field_scalars f u) n (L a) (L b) = algebra_dot (field_scalars f u) n a b].
Proof.
move=> F f u cj re im root I P n U n0 HU Ex R L a b Ra Rb; split.
- exact: (right_conjugationE f u P).
- exact: (left_conjugationE f u P).
- by move=> k kn; split; [apply: (left_right f u P)|apply: (right_left f u P)].
- exact: (right_dot f u P).
exact: (left_dot f u P).
Qed.
Print Assumptions C73_conjugation.

(** Complex numbers meet the hypotheses. *)
Example C73_hypotheses : forall C : numClosedFieldType,
  complex_parts (conjC : C -> C) (fun x => 'Re x) (fun x => 'Im x) (fun x => sqrtC x) 'i.
Proof.
move=> C; split; [exact: closed_field|by rewrite /imaginary_unit -expr2 sqrCi conjCi|].
move=> x; rewrite ImE.
have i0 : 'i != 0 :> C by rewrite neq0Ci.
have t0 : 2%:R != 0 :> C by rewrite pnatr_eq0.
apply: (mulIf (mulf_neq0 t0 i0)); rewrite divfK ?mulf_neq0 //.
by rewrite mulrA divfK // mulrAC -expr2 sqrCi mulN1r opprB.
Qed.

Example C73_unitary : forall C : numClosedFieldType,
  unitary (conjC : C -> C) (mxr 3 3 (fun i j => if i == j then 'i else 0)).
Proof.
move=> C; apply/matrixP => i j; rewrite !mxE (bigD1 i) //= !mxE eqxx big1 ?addr0 => [|k ki].
  rewrite -val_eqE; case: eqP => _; last by rewrite mulr0.
  by rewrite conjCi mulNr -expr2 sqrCi opprK.
rewrite !mxE; have -> : (k == i :> nat) = false by exact: negPf ki.
by rewrite rmorph0 mul0r.
Qed.

(** SU(2) computed, with pairs of rational numbers as complex numbers; the only
    square roots that occur are those of 1, 4 and 1/4. *)
Definition gadd (x y : rat * rat) : rat * rat := (x.1 + y.1, x.2 + y.2).
Definition gopp (x : rat * rat) : rat * rat := (- x.1, - x.2).
Definition gmul (x y : rat * rat) : rat * rat := (x.1 * y.1 - x.2 * y.2, x.1 * y.2 + x.2 * y.1).
Definition gnorm (x : rat * rat) : rat := x.1 * x.1 + x.2 * x.2.
Definition ginv (x : rat * rat) : rat * rat := (x.1 / gnorm x, - x.2 / gnorm x).
Definition gauss : LinalgModel.scalars :=
  LinalgModel.mkScalars (rat * rat)%type (0, 0) (1, 0) gadd (fun x y => gadd x (gopp y)) gmul
    (fun x y => gmul x (ginv y)) gopp (fun x => x == (0, 0)) (fun x y => x.1 < y.1) (fun x y => x.1 <= y.1)
    (fun x => (gnorm x, 0)) (fun x => (if x.1 < 0 then - x.1 else x.1, 0)) id (77%:Q, 77%:Q).
Definition groot (x : rat * rat) : rat * rat :=
  if x == (4%:Q, 0) then (2%:Q, 0) else if x == (4%:Q^-1, 0) then (2%:Q^-1, 0) else if x == (1, 0) then (1, 0) else (55%:Q, 0).
Definition gconj (x : rat * rat) : rat * rat := (x.1, - x.2).

Example C73_example :
  let a k : rat * rat := (nth 0 [:: 2%:Q; 4%:Q; 6%:Q] k, 0) in
  let E := expand gauss gconj groot (0, 1) 2 a in
  let b := project_to_algebra gauss gconj (fun x => (x.1, 0)) (fun x => (x.2, 0)) groot 2 E in
  [&& E 0%N 0%N == (0, 1), E 0%N 1%N == (2%:Q, 3%:Q), E 1%N 0%N == (- 2%:Q, 3%:Q), E 1%N 1%N == (0, -1),
      b 0%N == (2%:Q, 0), b 1%N == (4%:Q, 0) & b 2%N == (6%:Q, 0)].
Proof. by vm_compute. Qed.
