(** SU2 matrices kept as four numbers. *)
Set Warnings "-notation-overridden,-ambiguous-paths".
From mathcomp Require Import all_ssreflect all_algebra.
From Verif Require Import FieldTac LinalgModel LinalgSpec MatrixModel MatrixSpec MatrixProofs1 EigenSpec EigenProps SuModel SuSpec
  AlgebraModel AlgebraSpec AlgebraProofs5 AlgebraProps Su2Model Su2Spec Su2Proofs1 Su2Proofs2 Su2Proofs3.
Set Implicit Arguments.
Unset Strict Implicit.
Unset Printing Implicit Defensive.
Import Order.TTheory GRing.Theory Num.Theory.
Local Open Scope ring_scope.

(** C75: convert_to_2x2_matrix turns the operators on SU2 into those on matrices. *)
Theorem C75_operators : forall (F : numFieldType) (f : F -> F) (u : F) (cj : {rmorphism F -> F})
    (re im root : F -> F) (I : F), complex_parts cj re im root I ->
  let FS := field_scalars f u in
  let M q : 'M[F]_2 := mxr 2 2 (su2_matrix FS I q) in
  forall (p q : su2 FS) (z : F),
  [/\ M (su2_add FS p q) = M p + M q /\ M (su2_sub FS p q) = M p - M q,
      M (su2_opp FS q) = - M q /\ M (su2_mul FS p q) = M p *m M q,
      M (su2_scalar FS z) = z%:M /\ M (su2_add_scalar FS q z) = M q + z%:M,
      M (su2_sub_scalar FS q z) = M q - z%:M /\ M (su2_scalar_sub FS z q) = z%:M - M q &
      M (su2_scale FS q z) = z *: M q /\ (z != 0 -> M (su2_div FS q z) = z^-1 *: M q)].
Proof.
move=> F f u cj re im root I P FS M p q z; rewrite /M.
split; split; [exact: (M_add P)|exact: (M_sub P)|exact: (M_opp P)|exact: (M_mul P)|exact: (@M_scalar _ f u _ _ _ _ _ P)
  |exact: (M_add_scalar P)|exact: (M_sub_scalar P)|exact: (M_scalar_sub P)|exact: (M_scale P)|exact: M_div].
Qed.
Print Assumptions C75_operators.

(** dagger(), trace(), det() and mul_trace() are those of the matrix, whereas
    squarenorm() is half the sum of the squared elements; the matrix is in SU(2)
    just if det() is 1. *)
Theorem C75_numbers : forall (F : numFieldType) (f : F -> F) (u : F) (cj : {rmorphism F -> F})
    (re im root : F -> F) (I : F), complex_parts cj re im root I ->
  let FS := field_scalars f u in
  let M q : 'M[F]_2 := mxr 2 2 (su2_matrix FS I q) in
  forall p q : su2 FS, real_su2 q ->
  [/\ M (su2_dagger FS q) = adjoint cj (M q),
      su2_trace FS q = \tr (M q) /\ su2_mul_trace FS p q = \tr (M p *m M q),
      su2_det FS q = \det (M q),
      \sum_i \sum_j `|M q i j| ^+ 2 = 2%:R * su2_squarenorm FS q &
      special_unitary cj (M q) <-> su2_det FS q = 1].
Proof.
move=> F f u cj re im root I P FS M p q rq; split.
- exact: (M_dagger P).
- by rewrite /M -(M_mul P) !M_trace.
- by rewrite -(M_det P).
- exact: (su2_squarenormE P).
exact: (su2_special P).
Qed.
Print Assumptions C75_numbers.

(** normalize(), reunitarize() and random() give an element of SU(2), the matrix
    divided by the positive square root of the determinant. *)
Theorem C75_normalize : forall (F : numFieldType) (f : F -> F) (u : F) (cj : {rmorphism F -> F})
    (re im root : F -> F) (I : F), complex_parts cj re im root I ->
  let FS := field_scalars f u in
  let M q : 'M[F]_2 := mxr 2 2 (su2_matrix FS I q) in
  forall q : su2 FS, real_su2 q -> \det (M q) != 0 ->
  let r := root (\det (M q)) in
  [/\ 0 < r, M (su2_normalize FS root q) = r^-1 *: M q, special_unitary cj (M (su2_normalize FS root q)),
      su2_reunitarize FS root q = su2_normalize FS root q &
      forall width w, q = su2_gaussian FS width w -> su2_random FS root width w = su2_normalize FS root q].
Proof.
move=> F f u cj re im root I P FS M q rq; rewrite /M (M_det P) => d0.
have [_ a b c] := su2_normal P rq d0.
by split=> // width w ->.
Qed.
Print Assumptions C75_normalize.

(** Every element of SU(2) is the matrix of the numbers project_from_matrix takes
    from it, and these numbers are the only ones. *)
Theorem C75_all : forall (F : numFieldType) (f : F -> F) (u : F) (cj : {rmorphism F -> F})
    (re im root : F -> F) (I : F), complex_parts cj re im root I ->
  let FS := field_scalars f u in
  let M q : 'M[F]_2 := mxr 2 2 (su2_matrix FS I q) in
  (forall W : nat -> nat -> F, special_unitary cj (mxr 2 2 W) ->
    exists q, [/\ real_su2 q, M q = mxr 2 2 W & q = project_from_matrix FS re im W 0 1]) /\
  (forall q, real_su2 q -> project_from_matrix FS re im (su2_matrix FS I q) 0 1 = q).
Proof.
move=> F f u cj re im root I P FS M; split=> [W SW|q rq]; last exact: (project_matrix P).
by have [r m] := special_project f u P SW; exists (project_from_matrix FS re im W 0 1).
Qed.
Print Assumptions C75_all.

(** The overlap of a matrix with an element of a subgroup depends on this element
    through the numbers project_from_matrix takes from rows and columns i and j. *)
Theorem C75_subgroup : forall (F : numFieldType) (f : F -> F) (u : F) (cj : {rmorphism F -> F})
    (re im root : F -> F) (I : F), complex_parts cj re im root I ->
  let FS := field_scalars f u in
  let M q : 'M[F]_2 := mxr 2 2 (su2_matrix FS I q) in
  forall n i j (A : nat -> nat -> F) (V : su2 FS), (i < n)%N -> (j < n)%N -> i != j -> real_su2 V ->
  re (\tr (embed2 n i j (su2_matrix FS I V) *m mxr n n A)) =
    \tr (M V *m M (project_from_matrix FS re im A i j))
    + re (\sum_(k < n | (k != i :> nat) && (k != j :> nat)) A k k).
Proof.
move=> F f u cj re im root I P FS M n i j A V hi hj ij rV.
by rewrite /M -(M_mul P) M_trace (project_overlap P).
Qed.
Print Assumptions C75_subgroup.

(** The algebra: expand() is (i / 2) (a s1 + b s2 + c s3) with the Pauli matrices,
    antihermitean and traceless; project_to_algebra undoes it, and gives the
    antihermitean traceless part of any SU2; dot() is twice the trace of the
    product, and squarenorm() is dot() with itself. *)
Theorem C75_algebra : forall (F : numFieldType) (f : F -> F) (u : F) (cj : {rmorphism F -> F})
    (re im root : F -> F) (I : F), complex_parts cj re im root I ->
  let FS := field_scalars f u in
  let M q : 'M[F]_2 := mxr 2 2 (su2_matrix FS I q) in
  forall (D E : su2_algebra FS) (q : su2 FS), real_algebra D -> real_algebra E -> real_su2 q ->
  [/\ M (alg_expand FS E) = (I / 2%:R) *: (ea FS E *: pauli1 F + eb FS E *: pauli2 I + ec FS E *: pauli3 F)
        /\ antihermitean cj (M (alg_expand FS E)) /\ \tr (M (alg_expand FS E)) = 0,
      su2_project FS (alg_expand FS E) = E,
      M (alg_expand FS (su2_project FS q)) = algebra_part cj (M q),
      forall s, M (alg_expand FS (su2_project_scaled FS s q)) = s *: algebra_part cj (M q) &
      alg_dot FS D E = 2%:R * \tr (adjoint cj (M (alg_expand FS D)) *m M (alg_expand FS E))
        /\ alg_squarenorm FS E = alg_dot FS E E].
Proof.
move=> F f u cj re im root I P FS M D E q rD rE rq; split.
- by split; [exact: (M_expand P)|exact: (expand_anti2 P)].
- exact: (su2_project_expand (mc_field F) (@two0 F)).
- exact: (expand_project2 P).
- by move=> s; exact: (expand_project_scaled P).
by split=> //; exact: (su2_dot_tr P).
Qed.
Print Assumptions C75_algebra.

(** Conjugation with an element of SU(2). *)
Theorem C75_conjugation : forall (F : numFieldType) (f : F -> F) (u : F) (cj : {rmorphism F -> F})
    (re im root : F -> F) (I : F), complex_parts cj re im root I ->
  let FS := field_scalars f u in
  let M q : 'M[F]_2 := mxr 2 2 (su2_matrix FS I q) in
  forall (U : su2 FS) (D E : su2_algebra FS), real_su2 U -> special_unitary cj (M U) ->
  [/\ M (alg_expand FS (su2_right FS U E)) = adjoint cj (M U) *m M (alg_expand FS E) *m M U,
      M (alg_expand FS (su2_left FS U E)) = M U *m M (alg_expand FS E) *m adjoint cj (M U),
      su2_left FS U (su2_right FS U E) = E /\ su2_right FS U (su2_left FS U E) = E,
      alg_dot FS (su2_right FS U D) (su2_right FS U E) = alg_dot FS D E &
      alg_dot FS (su2_left FS U D) (su2_left FS U E) = alg_dot FS D E].
Proof.
move=> F f u cj re im root I P FS M U D E rU [_]; rewrite /M (M_det P) => d.
have FT := mc_field F; have t0 := @two0 F.
rewrite -!(M_dagger P) // -!(M_mul P); split.
- by rewrite -[X in su2_matrix _ _ X](right_quat FT).
- by rewrite -[X in su2_matrix _ _ X](left_quat FT).
- by split; [apply: (su2_left_right FT)|apply: (su2_right_left FT)].
- exact: (su2_right_dot FT).
exact: (su2_left_dot FT).
Qed.
Print Assumptions C75_conjugation.

(** Algebra<SU<2>>, which has the components in the other order, gives the same
    matrices, but its dot() is half of the one of Algebra<SU2>. *)
Theorem C75_sun : forall (F : numFieldType) (f : F -> F) (u : F) (cj : {rmorphism F -> F})
    (re im root : F -> F) (I : F), complex_parts cj re im root I ->
  let FS := field_scalars f u in
  let order (E : su2_algebra FS) k : F := nth 0 [:: ec FS E; eb FS E; ea FS E] k in
  forall D E : su2_algebra FS, real_algebra D -> real_algebra E ->
  mxr 2 2 (expand FS cj root I 2 (order E)) = mxr 2 2 (su2_matrix FS I (alg_expand FS E)) /\
  alg_dot FS D E = 2%:R * algebra_dot FS 2 (order D) (order E).
Proof.
move=> F f u cj re im root I P FS order D E rD rE; split; first exact: (sun_expand P).
rewrite (@dot_tr _ f u _ _ _ _ _ P) //; try by apply: sun_real.
by rewrite !(sun_expand P) //; exact: (su2_dot_tr P).
Qed.
Print Assumptions C75_sun.

(** Numbers that meet the hypotheses: (2 + i s1 + 2 i s2 + 4 i s3) / 5 is in SU(2). *)
Example C75_hypotheses : forall (C : numClosedFieldType) (f : C -> C) (u : C),
  complex_parts (conjC : C -> C) (fun x => 'Re x) (fun x => 'Im x) (fun x => sqrtC x) 'i /\
  exists q : su2 (field_scalars f u),
    [/\ real_su2 q, special_unitary (conjC : C -> C) (mxr 2 2 (su2_matrix (field_scalars f u) 'i q)) & qa _ q != 0].
Proof.
move=> C f u; have P := C73_hypotheses C; split=> //.
pose q : su2 (field_scalars f u) := mkSu2 (field_scalars f u) (1%:R / 5%:R : C) (2%:R / 5%:R : C) (4%:R / 5%:R : C) (2%:R / 5%:R : C).
have rq : real_su2 q by split; rewrite /= realM ?realV ?realn ?real1.
have n5 : (5%:R : C) != 0 by rewrite pnatr_eq0.
exists q; split=> //; last by rewrite /= mulf_neq0 ?invr_eq0 ?pnatr_eq0.
apply/(su2_special P rq); rewrite /su2_det /= !mulf_div -!mulrDl -!natrM -!natrD.
by rewrite divff // pnatr_eq0.
Qed.

Example C75_example :
  let q := mkSu2 gauss (1, 0) (2%:Q, 0) (4%:Q, 0) (2%:Q, 0) in
  let E := mkAlg gauss (1, 0) (0, 0) (0, 0) in
  let U := su2_div gauss q (5%:Q, 0) in
  let W := su2_right gauss U E in
  [&& su2_det gauss q == (25%:Q, 0), su2_matrix gauss (0, 1) q 1%N 0%N == (- 2%:Q, 1),
      ea gauss W == (- 15%:Q / 25%:Q, 0), eb gauss W == (20%:Q / 25%:Q, 0) & ec gauss W == (0, 0)].
Proof. by vm_compute. Qed.
