(** Overrelaxation of SU(N) links. *)
Set Warnings "-notation-overridden,-ambiguous-paths".
From mathcomp Require Import all_ssreflect all_algebra.
From Verif Require Import FieldTac LinalgModel LinalgSpec MatrixModel MatrixSpec MatrixProofs1 EigenSpec EigenProofs2 SuModel SuSpec SuProofs2
  AlgebraModel AlgebraSpec AlgebraProofs4 AlgebraProofs5 AlgebraProps Su2Model Su2Spec Su2Proofs1 Su2Proofs2 Su2Proofs3
  OverrelaxModel OverrelaxProofs1 OverrelaxProofs2 OverrelaxProofs3 OverrelaxProofs4 OverrelaxProofs5.
Set Implicit Arguments.
Unset Strict Implicit.
Unset Printing Implicit Defensive.
Import Order.TTheory GRing.Theory Num.Theory.
Local Open Scope ring_scope.

(** C77: the overrelaxation with SU(2) subgroups leaves the link in SU(N) and does
    not change Re Tr (U staple^+), whatever the staple. *)
Theorem C77_overrelax : forall (F : numFieldType) (f : F -> F) (u : F) (cj : {rmorphism F -> F})
    (re im root : F -> F) (I : F), complex_parts cj re im root I ->
  let FS := field_scalars f u in
  forall n (U S U' : nat -> nat -> F), (0 < n)%N -> special_unitary cj (mxr n n U) ->
  overrelax FS cj re im root I n U S = Some U' ->
  special_unitary cj (mxr n n U') /\
  re (\tr (mxr n n U' *m adjoint cj (mxr n n S))) = re (\tr (mxr n n U *m adjoint cj (mxr n n S))).
Proof. by move=> F f u cj re im root I P FS n U S U' n0 sU E; exact: (overrelaxP P n0 sU E). Qed.
Print Assumptions C77_overrelax.

(** For SU(2) a second overrelaxation undoes the first. *)
Theorem C77_twice : forall (F : numFieldType) (f : F -> F) (u : F) (cj : {rmorphism F -> F})
    (re im root : F -> F) (I : F), complex_parts cj re im root I ->
  let FS := field_scalars f u in
  forall U S U' : nat -> nat -> F, overrelax FS cj re im root I 2 U S = Some U' ->
  exists2 U'' : nat -> nat -> F, overrelax FS cj re im root I 2 U' S = Some U'' & mxr 2 2 U'' = mxr 2 2 U.
Proof. by move=> F f u cj re im root I P FS U S U' E; exact: (overrelax2_twice P E). Qed.
Print Assumptions C77_twice.

(** For SU(2) and a staple that is a multiple of an element of SU(2), as every sum
    of such elements is, the new link is S U^+ S / det S. *)
Theorem C77_su2 : forall (F : numFieldType) (f : F -> F) (u : F) (cj : {rmorphism F -> F})
    (re im root : F -> F) (I : F), complex_parts cj re im root I ->
  let FS := field_scalars f u in
  forall (U S : nat -> nat -> F) (s : su2 FS), special_unitary cj (mxr 2 2 U) ->
  real_su2 s -> mxr 2 2 S = mxr 2 2 (su2_matrix FS I s) -> mxr 2 2 S != 0 ->
  exists2 U' : nat -> nat -> F, overrelax FS cj re im root I 2 U S = Some U' &
    mxr 2 2 U' = (\det (mxr 2 2 S))^-1 *: (mxr 2 2 S *m adjoint cj (mxr 2 2 U) *m mxr 2 2 S).
Proof.
move=> F f u cj re im root I P FS U S s sU rs eS S0; apply: (overrelax2_formula P sU rs _ eS).
by apply: contra S0; rewrite eS => /eqP d0; exact/eqP/(quat0 P rs d0).
Qed.
Print Assumptions C77_su2.

(** For SU(3) there are links and staples for which the projection of the action on
    a subgroup is zero, so that the code divides zero by zero. *)
Theorem C77_defined_refuted : forall (F : numFieldType) (f : F -> F) (u : F) (cj : {rmorphism F -> F})
    (re im root : F -> F) (I : F), complex_parts cj re im root I ->
  exists U S : nat -> nat -> F, [/\ special_unitary cj (mxr 3 3 U), special_unitary cj (mxr 3 3 S) &
    overrelax (field_scalars f u) cj re im root I 3 U S = None].
Proof. by move=> F f u cj re im root I P; exact: (overrelax_none f u P). Qed.
Print Assumptions C77_defined_refuted.

(** C78: suN_max_staple_sum_rot returns an element of SU(N) whose overlap with the
    staple is not less than that of the unit matrix, for any order of the indices. *)
Theorem C78_max : forall (F : numFieldType) (f : F -> F) (u : F) (cj : {rmorphism F -> F})
    (re im root : F -> F) (I : F), complex_parts cj re im root I ->
  let FS := field_scalars f u in
  forall (eps : F) n (perm : nat -> nat) (S U : nat -> nat -> F),
  (forall i, (i < n)%N -> (perm i < n)%N) ->
  (forall i j, (i < n)%N -> (j < n)%N -> perm i = perm j -> i = j) ->
  max_rot FS cj re im root I eps n perm S = Some U ->
  special_unitary cj (mxr n n U) /\ re (\tr (mxr n n S)) <= re (\tr (mxr n n U *m mxr n n S)).
Proof.
by move=> F f u cj re im root I P FS eps n perm S U pr pin E; exact: (max_rotP P pr pin E).
Qed.
Print Assumptions C78_max.

(** For SU(2) it is the element with the largest overlap; there is no result just
    if all elements of SU(2) have the overlap zero. *)
Theorem C78_max_su2 : forall (F : numFieldType) (f : F -> F) (u : F) (cj : {rmorphism F -> F})
    (re im root : F -> F) (I : F), complex_parts cj re im root I ->
  let FS := field_scalars f u in
  forall (eps : F) (perm : nat -> nat) (S : nat -> nat -> F),
  (forall i, (i < 2)%N -> (perm i < 2)%N) ->
  (forall i j, (i < 2)%N -> (j < 2)%N -> perm i = perm j -> i = j) ->
  match max_rot FS cj re im root I eps 2 perm S with
  | Some U => special_unitary cj (mxr 2 2 (U : nat -> nat -> F)) /\
      (forall V : nat -> nat -> F, special_unitary cj (mxr 2 2 V) ->
        re (\tr (mxr 2 2 V *m mxr 2 2 S)) <= re (\tr (mxr 2 2 (U : nat -> nat -> F) *m mxr 2 2 S)))
  | None => forall V : nat -> nat -> F, special_unitary cj (mxr 2 2 V) -> re (\tr (mxr 2 2 V *m mxr 2 2 S)) = 0
  end.
Proof.
move=> F f u cj re im root I P FS eps perm S pr pin; have FT := mc_field F.
have H := max_rot2 (f := f) (u := u) P pr pin eps S; have rs := project_real (f := f) (u := u) P S 0 1.
case E: (max_rot FS cj re im root I eps 2 perm S) H => [U|].
  move=> [d0 eU]; have [_ _ rn dn] := su2_scaled P rs d0.
  have rd : real_su2 (su2_dagger FS (su2_normalize FS root (project_from_matrix FS re im S 0 1))) by apply: real_dagger.
  split; first by rewrite eU; apply/(su2_special P rd); exact: etrans (det_dagger _) dn.
  move=> V /(special_quat f u P) [w [rw dw ->]]; rewrite eU !(overlap2 P) //.
  exact: (max2_best P).
move=> d0 V /(special_quat f u P) [w [rw dw ->]]; rewrite (overlap2 P) //.
by rewrite (quat_zero rs d0) mul_scalar /su2_trace /= !mulr0.
Qed.
Print Assumptions C78_max_su2.

(** For SU(3) the element returned need not have the largest overlap, contrary to
    the description of the function. *)
Theorem C78_max_refuted : forall (F : numFieldType) (f : F -> F) (u : F) (cj : {rmorphism F -> F})
    (re im root : F -> F) (I : F), complex_parts cj re im root I ->
  let FS := field_scalars f u in
  forall (eps : F) (perm : nat -> nat),
  (forall i, (i < 3)%N -> (perm i < 3)%N) ->
  (forall i j, (i < 3)%N -> (j < 3)%N -> perm i = perm j -> i = j) ->
  exists S U V : nat -> nat -> F, [/\ max_rot FS cj re im root I eps 3 perm S = Some U,
    special_unitary cj (mxr 3 3 V) & re (\tr (mxr 3 3 U *m mxr 3 3 S)) < re (\tr (mxr 3 3 V *m mxr 3 3 S))].
Proof. by move=> F f u cj re im root I P FS eps perm pr pin; exact: (@max_refuted _ f u _ _ _ _ _ P perm eps pr pin). Qed.
Print Assumptions C78_max_refuted.

(** The overrelaxation with beta: with an element T of SU(N) that depends on the
    staple and on the order of the indices only, the new link T U^+ T, which is in
    SU(N) and leads back to U, is accepted if Re Tr (U staple^+) grows or the
    random number is below the given exponential, and U is kept otherwise. *)
Theorem C78_update : forall (F : numFieldType) (f : F -> F) (u : F) (cj : {rmorphism F -> F})
    (re im root exp : F -> F) (I : F), complex_parts cj re im root I ->
  let FS := field_scalars f u in
  forall (eps : F) n (perm : nat -> nat) (S : nat -> nat -> F), (0 < n)%N ->
  (forall i, (i < n)%N -> (perm i < n)%N) ->
  (forall i j, (i < n)%N -> (j < n)%N -> perm i = perm j -> i = j) ->
  (forall beta draw U, overrelax_max FS cj re im root exp I eps n perm beta draw U S = None) \/
  exists T : 'M[F]_n, special_unitary cj T /\
  forall (beta draw : F) (U : nat -> nat -> F), special_unitary cj (mxr n n U) ->
  let U' := T *m adjoint cj (mxr n n U) *m T in
  let ds := re (\tr (U' *m adjoint cj (mxr n n S))) - re (\tr (mxr n n U *m adjoint cj (mxr n n S))) in
  [/\ special_unitary cj U', T *m adjoint cj U' *m T = mxr n n U &
    if (n == 2%N) || (0 < ds) || (draw < exp (beta / n%:R * ds))
    then exists2 W : nat -> nat -> F,
           overrelax_max FS cj re im root exp I eps n perm beta draw U S = Some (1%N, W) & mxr n n W = U'
    else overrelax_max FS cj re im root exp I eps n perm beta draw U S = Some (0%N, U)].
Proof.
move=> F f u cj re im root exp I P FS eps n perm S n0 pr pin.
case E: (max_rot FS cj re im root I eps n perm (dagger FS cj n n S)) => [T|]; last first.
  by left=> beta draw U; rewrite /overrelax_max E.
right; exists (mxr n n (T : nat -> nat -> F)); have [sT _] := max_rotP P pr pin E; split=> // beta draw U sU U' ds.
have sU' : special_unitary cj U'.
  by apply: specialM => //; apply: specialM => //; exact: (special_adjoint P).
split=> //; last exact: (overrelax_maxP P exp n0 E beta draw U).
case: (P) => C _ _; rewrite /U' !adjointM (adjointK C) !mulmxA (unitary_r sT.1) mul1mx -mulmxA.
by rewrite sT.1 mulmx1.
Qed.
Print Assumptions C78_update.

(** For SU(2) it does not change Re Tr (U staple^+), whatever the staple. *)
Theorem C78_update_su2 : forall (F : numFieldType) (f : F -> F) (u : F) (cj : {rmorphism F -> F})
    (re im root exp : F -> F) (I : F), complex_parts cj re im root I ->
  let FS := field_scalars f u in
  forall (eps beta draw : F) (perm : nat -> nat) (U S U' : nat -> nat -> F) (k : nat),
  (forall i, (i < 2)%N -> (perm i < 2)%N) ->
  (forall i j, (i < 2)%N -> (j < 2)%N -> perm i = perm j -> i = j) ->
  special_unitary cj (mxr 2 2 U) ->
  overrelax_max FS cj re im root exp I eps 2 perm beta draw U S = Some (k, U') ->
  k = 1%N /\
  re (\tr (mxr 2 2 U' *m adjoint cj (mxr 2 2 S))) = re (\tr (mxr 2 2 U *m adjoint cj (mxr 2 2 S))).
Proof.
move=> F f u cj re im root exp I P FS eps beta draw perm U S U' k pr pin sU.
have H := max_rot2 (f := f) (u := u) P pr pin eps (dagger FS cj 2 2 S).
rewrite /overrelax_max.
case E: (max_rot FS cj re im root I eps 2 perm (dagger FS cj 2 2 S)) H => [T|] // [d0 eT] /= [<- eU'].
have eW : mxr 2 2 U' = mxr 2 2 (T : nat -> nat -> F) *m adjoint cj (mxr 2 2 U) *m mxr 2 2 (T : nat -> nat -> F).
  by rewrite -eU' !op_mul_mx // daggerE.
have [v [rv dv eU]] := special_quat f u P sU.
split=> //; rewrite eW eT eU -(M_dagger P) // -!(M_mul P) -(daggerE f u).
set D : nat -> nat -> F := dagger FS cj 2 2 S in d0 *.
have rs := project_real (f := f) (u := u) P D 0 1; have [_ _ rn _] := su2_scaled P rs d0.
have rd := real_dagger rn.
rewrite !(overlap2 P) //; last by do !apply: real_mul => //; exact: real_dagger.
exact: (reflect_overlap v (max_scalar P rs d0) (max_scale P rs d0)).
Qed.
Print Assumptions C78_update_su2.

(** For SU(2) and a staple as in C77_su2 both overrelaxations give the same link. *)
Theorem C78_same_su2 : forall (F : numFieldType) (f : F -> F) (u : F) (cj : {rmorphism F -> F})
    (re im root exp : F -> F) (I : F), complex_parts cj re im root I ->
  let FS := field_scalars f u in
  forall (eps beta draw : F) (perm : nat -> nat) (U S : nat -> nat -> F) (s : su2 FS),
  (forall i, (i < 2)%N -> (perm i < 2)%N) ->
  (forall i j, (i < 2)%N -> (j < 2)%N -> perm i = perm j -> i = j) ->
  special_unitary cj (mxr 2 2 U) ->
  real_su2 s -> mxr 2 2 S = mxr 2 2 (su2_matrix FS I s) -> mxr 2 2 S != 0 ->
  exists U' U'' : nat -> nat -> F, [/\ overrelax FS cj re im root I 2 U S = Some U',
    overrelax_max FS cj re im root exp I eps 2 perm beta draw U S = Some (1%N, U'') & mxr 2 2 U' = mxr 2 2 U''].
Proof.
move=> F f u cj re im root exp I P FS eps beta draw perm U S s pr pin sU rs eS S0.
have d0 : su2_det FS s != 0.
  by apply: contra S0; rewrite eS => /eqP d0; exact/eqP/(quat0 P rs d0).
have [U' eU' f1] := overrelax2_formula P sU rs d0 eS; exists U'.
have H := max_rot2 (f := f) (u := u) P pr pin eps (dagger FS cj 2 2 S).
have pS : project_from_matrix FS re im (dagger FS cj 2 2 S) 0 1 = su2_dagger FS s.
  by apply: (project_M P); [exact: real_dagger|rewrite daggerE eS (M_dagger P)].
rewrite pS in H.
rewrite /overrelax_max; case E: (max_rot FS cj re im root I eps 2 perm (dagger FS cj 2 2 S)) H => [T|]; last first.
  by move=> e0; rewrite (etrans (esym (det_dagger s)) e0) eqxx in d0.
move=> [_ eT]; eexists; split; [exact: eU'|by []|].
rewrite f1 !op_mul_mx // daggerE eT.
have [r0 rr _ _] := su2_scaled P rs d0.
have -> : su2_normalize FS root (su2_dagger FS s) = su2_dagger FS (su2_normalize FS root s).
  by rewrite /su2_normalize det_dagger; apply: su2_ext; rewrite /= ?mulNr.
rewrite dagger_dagger; have [_ -> _ _] := su2_normal P rs d0.
by rewrite -scalemxAl -scalemxAr -scalemxAl scalerA -invfM rr eS (M_det P).
Qed.
Print Assumptions C78_same_su2.

(** The complex numbers and the order 1, 2, 0 meet the hypotheses; a staple with a
    result is the matrix 1 + 4 i times the unit matrix, for which C78_max_refuted
    holds. *)
Example C78_hypotheses : forall (C : numClosedFieldType),
  complex_parts (conjC : C -> C) (fun x => 'Re x) (fun x => 'Im x) (fun x => sqrtC x) 'i /\
  exists perm, [/\ forall i, (i < 3)%N -> (perm i < 3)%N,
    forall i j, (i < 3)%N -> (j < 3)%N -> perm i = perm j -> i = j & perm 0%N = 1%N].
Proof.
move=> C; split; first exact: C73_hypotheses.
by exists (fun i => nth 0%N [:: 1; 2; 0]%N i); split=> // [[|[|[|i]]]|[|[|[|i]]] [|[|[|j]]]].
Qed.

(** The staple (3 + 4 i s3) / 5 turns the unit matrix into its square, with the
    square root given for the one number needed. *)
Example C77_example :
  let re x := (x.1, 0) : num gauss in
  let im x := (x.2, 0) : num gauss in
  let cj x := (x.1, - x.2) : num gauss in
  let S (i j : nat) : num gauss := if i == j then if i == 0%N then (3%:Q, 4%:Q) else (3%:Q, - 4%:Q) else (0, 0) in
  let one (i j : nat) : num gauss := if i == j then (1, 0) else (0, 0) in
  match overrelax gauss cj re im (fun _ => (5%:Q, 0)) (0, 1) 2 one S with
  | Some W => [&& W 0%N 0%N == (- 7%:Q / 25%:Q, 24%:Q / 25%:Q), W 0%N 1%N == (0, 0), W 1%N 0%N == (0, 0) &
       W 1%N 1%N == (- 7%:Q / 25%:Q, - 24%:Q / 25%:Q)]
  | None => false
  end.
Proof. by vm_compute. Qed.
