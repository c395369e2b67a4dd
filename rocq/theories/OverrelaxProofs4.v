(** SU(2), where there is one subgroup; and where the search stops early. *)
Set Warnings "-notation-overridden,-ambiguous-paths".
From mathcomp Require Import all_ssreflect all_algebra.
From Verif Require Import FieldTac LinalgModel LinalgSpec LinalgProofs1 LinalgProofs4 MatrixModel MatrixSpec MatrixProofs1 EigenSpec EigenProofs1
  EigenProofs2 SuModel SuSpec SuProofs2 AlgebraModel AlgebraSpec AlgebraProofs3 AlgebraProofs4 AlgebraProofs5 Su2Model Su2Spec Su2Proofs1 Su2Proofs2 Su2Proofs3
  OverrelaxModel OverrelaxProofs1 OverrelaxProofs2 OverrelaxProofs3.
Set Implicit Arguments.
Unset Strict Implicit.
Unset Printing Implicit Defensive.
Import Order.TTheory GRing.Theory Num.Theory.
Local Open Scope ring_scope.

Section PureField.
Variables (K : Type) (zero one : K) (add mul sub div : K -> K -> K) (opp inv : K -> K).
Hypothesis FT : field_theory zero one add mul sub opp div inv eq.
Add Field K_field : FT.
Notation "a + b" := (add a b).
Notation "a * b" := (mul a b).
Notation "a - b" := (sub a b).
Notation "a / b" := (div a b).
Notation "- a" := (opp a).
Variables (a b c d a' b' c' d' r : K).
Lemma anti_a : - (d * a' + a * d' - b * c' + c * b') = d' * - a + - a' * d - - b' * - c + - c' * - b.
Proof. ring. Qed.
Lemma anti_d : d * d' - a * a' - b * b' - c * c' = d' * d - - a' * - a - - b' * - b - - c' * - c.
Proof. ring. Qed.
Lemma sc_r : d * zero + a * r - b * zero + c * zero = a * r.
Proof. ring. Qed.
Lemma sc_r' : d * r - a * zero - b * zero - c * zero = d * r.
Proof. ring. Qed.
Lemma sc_a : (d * a' + a * d' - b * c' + c * b') * r = (d * r) * a' + (a * r) * d' - (b * r) * c' + (c * r) * b'.
Proof. ring. Qed.
Lemma sc_d : (d * d' - a * a' - b * b' - c * c') * r = (d * r) * d' - (a * r) * a' - (b * r) * b' - (c * r) * c'.
Proof. ring. Qed.
End PureField.

Section Two.
Variables (F : numFieldType) (f : F -> F) (u : F) (cj : {rmorphism F -> F}) (re im root : F -> F) (I : F).
Hypothesis P : complex_parts cj re im root I.
Notation FS := (field_scalars f u).
Notation M q := (mxr 2 2 (su2_matrix FS I q)).
Notation FT := (mc_field F).
Notation project := (project_from_matrix FS re im).

Lemma embed01 (X : nat -> nat -> F) : embed2 2 0 1 X = mxr 2 2 X.
Proof. by apply/matrixP => i j; rewrite !mxE; case: i j => [[|[|i]] hi] [[|[|j]] hj]. Qed.

Definition flip (q : su2 FS) : su2 FS := mkSu2 FS (qa FS q) (opp FS (qb FS q)) (opp FS (qc FS q)) (qd FS q).

Lemma embed_flip V : embed2 2 1 0 (su2_matrix FS I (flip V)) = M V.
Proof.
apply/matrixP => i j; rewrite !mxE; case: i j => [[|[|i]] hi] [[|[|j]] hj] //=.
- by rewrite m11 m00 /= opprK.
- by rewrite m10 m01 /= opprK.
Qed.

Lemma project_flip A : project A 1 0 = flip (project A 0 1).
Proof. by apply: su2_ext; rewrite /=; [rewrite addrC|rewrite -mulNr opprB|rewrite -mulNr opprB|rewrite addrC]. Qed.

Lemma det_flip q : su2_det FS (flip q) = su2_det FS q.
Proof. by rewrite /su2_det /= !mulrNN. Qed.

Lemma normalize_flip q : su2_dagger FS (su2_normalize FS root (flip q)) = flip (su2_dagger FS (su2_normalize FS root q)).
Proof. by rewrite /su2_normalize det_flip; apply: su2_ext; rewrite /= ?mulNr. Qed.

Lemma project_ext A B : mxr 2 2 A = mxr 2 2 B -> project A 0 1 = project B 0 1.
Proof.
move/matrixP => E; have e (i j : 'I_2) : A i j = B i j by have := E i j; rewrite !mxE.
by rewrite /project_from_matrix (e 0 0) (e 0 1) (e 1 0) (e 1 1).
Qed.

Lemma project_M A q : real_su2 q -> mxr 2 2 A = M q -> project A 0 1 = q.
Proof. by move=> rq /project_ext ->; exact: (project_matrix P). Qed.

Lemma max_sweep2 perm st : max_sweep FS re im root I 2 perm st = max_hit FS re im root I 2 (perm 0%N) (perm 1%N) st.
Proof. by []. Qed.

Section Perm.
Variable perm : nat -> nat.
Hypothesis perm_range : forall i, (i < 2)%N -> (perm i < 2)%N.
Hypothesis perm_inj : forall i j, (i < 2)%N -> (j < 2)%N -> perm i = perm j -> i = j.

Lemma max_rot2 eps S : let s := project S 0 1 in
  match max_rot FS cj re im root I eps 2 perm S with
  | Some U => su2_det FS s != 0 /\ mxr 2 2 (U : nat -> nat -> F) = M (su2_dagger FS (su2_normalize FS root s))
  | None => su2_det FS s = 0
  end.
Proof.
move=> s; rewrite /max_rot [Nat.eqb 2 2]/= /max_iter max_sweep2.
have hi := perm_range (isT : (0 < 2)%N); have hj := perm_range (isT : (1 < 2)%N).
have ne : perm 0%N != perm 1%N by apply/eqP => /perm_inj; move/(_ isT isT).
have H := max_hitP f u P S (of_scalar FS 2 (1 : F)) hi hj ne.
case E: (max_hit _ _ _ _ _ _ _ _ _) => [[A U]|]; last first.
  rewrite (E : max_hit FS re im root I 2 (perm 0%N) (perm 1%N) (S, of_scalar FS 2 (1 : F)) = None) in H.
  cbv zeta iota in H; rewrite /s {s E}; move: H.
  move: hi hj ne; case: (perm 0%N) => [|[|k]] //; case: (perm 1%N) => [|[|l]] // _ _ _.
  by rewrite project_flip det_flip.
move: H; rewrite (E : max_hit FS re im root I 2 (perm 0%N) (perm 1%N) (S, of_scalar FS 2 (1 : F)) = Some (A, U)).
move=> [V [[_ _ _ [d0 eV]] [_ eU]]].
have R : su2_det FS s != 0 /\ mxr 2 2 (U : nat -> nat -> F) = M (su2_dagger FS (su2_normalize FS root s)).
  move: eU; rewrite of_scalarE mulmx1 eV; move: d0.
  move: hi hj ne; case: (perm 0%N) => [|[|k]] //; case: (perm 1%N) => [|[|l]] // _ _ _.
    by rewrite embed01.
  by rewrite project_flip det_flip normalize_flip embed_flip.
by case: max_done.
Qed.
End Perm.

Lemma outside2 A : outside re 2 0 1 A = 0.
Proof.
rewrite /outside big1; first exact: (re0 P).
by move=> [[|[|k]] hk].
Qed.

(** The overlap of an element of SU(2) and a 2 by 2 matrix *)
Lemma overlap2 w A : real_su2 w -> re (\tr (M w *m mxr 2 2 A)) = su2_trace FS (su2_mul FS w (project A 0 1)).
Proof. by move=> rw; rewrite -embed01 (overlap P) // outside2 addr0. Qed.

Lemma special_quat (W : nat -> nat -> F) : special_unitary cj (mxr 2 2 W) ->
  exists w, [/\ real_su2 w, su2_det FS w = 1 & mxr 2 2 W = M w].
Proof.
move=> sW; have [rw e] := special_project f u P sW; exists (project W 0 1); split=> //.
by have [_] := sW; rewrite -e (M_det P).
Qed.

Lemma max2_best s w : real_su2 s -> su2_det FS s != 0 -> real_su2 w -> su2_det FS w = 1 ->
  su2_trace FS (su2_mul FS w s) <= su2_trace FS (su2_mul FS (su2_dagger FS (su2_normalize FS root s)) s).
Proof. by move=> rs d0 rw dw; rewrite (max_scalar P) //; apply: (cauchy P). Qed.

Lemma trace_dagger q : su2_trace FS (su2_dagger FS q) = su2_trace FS q.
Proof. by []. Qed.

Lemma dagger_mul p q : su2_dagger FS (su2_mul FS p q) = su2_mul FS (su2_dagger FS q) (su2_dagger FS p).
Proof.
case: p q => [a b c d] [a' b' c' d'].
by apply: su2_ext; [exact: (anti_a FT)|exact: (anti_a FT)|exact: (anti_a FT)|exact: (anti_d FT)].
Qed.

Lemma dagger_dagger q : su2_dagger FS (su2_dagger FS q) = q.
Proof. by apply: su2_ext; rewrite //= opprK. Qed.

Lemma mul_scalar p (r : F) : su2_mul FS p (su2_scalar FS r) = su2_scale FS p r.
Proof.
case: p => [a b c d].
by apply: su2_ext; [exact: (sc_r FT)|exact: (sc_r FT)|exact: (sc_r FT)|exact: (sc_r' FT)].
Qed.

Lemma scale_mul p q (r : F) : su2_scale FS (su2_mul FS p q) r = su2_mul FS (su2_scale FS p r) q.
Proof.
case: p q => [a b c d] [a' b' c' d'].
by apply: su2_ext; [exact: (sc_a FT)|exact: (sc_a FT)|exact: (sc_a FT)|exact: (sc_d FT)].
Qed.

(** U' = T U^+ T keeps the overlap with s if T s is a number. *)
Lemma reflect_overlap s t v r : su2_mul FS t s = su2_scalar FS r -> su2_scale FS t r = su2_dagger FS s ->
  su2_trace FS (su2_mul FS (su2_mul FS (su2_mul FS t (su2_dagger FS v)) t) s) = su2_trace FS (su2_mul FS v s).
Proof.
move=> ts tr; rewrite -(su2_mulA FT) ts mul_scalar scale_mul.
by rewrite tr -dagger_mul trace_dagger.
Qed.

Lemma max_scale s : real_su2 s -> su2_det FS s != 0 ->
  su2_scale FS (su2_dagger FS (su2_normalize FS root s)) (root (su2_det FS s)) = su2_dagger FS s.
Proof.
move=> rs d0; have [r0 _ _ _] := su2_scaled P rs d0; have {}r0 : root (su2_det FS s) != 0 by rewrite gt_eqF.
by apply: su2_ext; rewrite /= ?mulNr divfK.
Qed.

(** The overrelaxation of one element of SU(2). *)
Lemma overrelax2 U S : let A := op_mul FS 2 2 2 U (dagger FS cj 2 2 S) in
  let a := project A 0 1 in
  match overrelax FS cj re im root I 2 U S with
  | Some U' => exists V, [/\ real_su2 V, su2_det FS V = 1, su2_mul FS V a = su2_dagger FS a, su2_det FS a != 0 &
      mxr 2 2 (U' : nat -> nat -> F) = M V *m mxr 2 2 U]
  | None => su2_det FS a = 0
  end.
Proof.
move=> A a; rewrite /overrelax -/A.
rewrite -[loopo _ _ _ _]/(overrelax_hit FS re im root I 2 0 1 (U, A)).
have := overrelax_hitP f u P U A (isT : (0 < 2)%N) (isT : (1 < 2)%N) isT; rewrite -/a.
case: overrelax_hit => [[U' A']|//] [V [[rV dV hV [d0 _]] [eU _]]] /=.
by exists V; rewrite eU embed01.
Qed.

Lemma overrelax2_formula U S s : special_unitary cj (mxr 2 2 U) -> real_su2 s -> su2_det FS s != 0 ->
  mxr 2 2 S = M s ->
  exists2 U', overrelax FS cj re im root I 2 U S = Some U' &
    mxr 2 2 (U' : nat -> nat -> F) = (\det (mxr 2 2 S))^-1 *: (mxr 2 2 S *m adjoint cj (mxr 2 2 U) *m mxr 2 2 S).
Proof.
move=> sU rs ds eS; have [v [rv dv eU]] := special_quat sU.
have := overrelax2 U S; set A := op_mul FS 2 2 2 U _; have eA : mxr 2 2 A = M (su2_mul FS v (su2_dagger FS s)).
  by rewrite /A op_mul_mx // daggerE eU eS (M_mul P) (M_dagger P).
have ea : project A 0 1 = su2_mul FS v (su2_dagger FS s) by apply: project_M => //; apply: real_mul => //; exact: real_dagger.
cbv zeta; rewrite ea (su2_det_mul FT) det_dagger dv mul1r.
case: overrelax => [U'|] //; last by move=> E; rewrite E eqxx in ds.
move=> [V [rV dV hV _ eU']]; exists U' => //.
rewrite eU' eU eS (M_det P); apply: (scalerI ds); rewrite scalerA divff // scale1r.
rewrite -(M_dagger P) // -!(M_mul P) -(M_scale P).
have -> // : su2_scale FS (su2_mul FS V v) (su2_det FS s) = su2_mul FS (su2_mul FS s (su2_dagger FS v)) s.
rewrite -[s in X in su2_mul FS (su2_mul FS X _) _]dagger_dagger -dagger_mul -hV -!(su2_mulA FT) (su2_dagger_mul FT) !(su2_mulA FT).
by rewrite mul_scalar.
Qed.

Lemma overrelax2_twice U S U' : overrelax FS cj re im root I 2 U S = Some U' ->
  exists2 U'', overrelax FS cj re im root I 2 U' S = Some U'' & mxr 2 2 (U'' : nat -> nat -> F) = mxr 2 2 U.
Proof.
move=> E; have := overrelax2 U S; rewrite E; set A := op_mul FS 2 2 2 U _; set a := project A 0 1 => -[V [rV dV hV d0 eU']].
have := overrelax2 U' S; set A' := op_mul FS 2 2 2 U' _.
have eA : mxr 2 2 A' = embed2 2 0 1 (su2_matrix FS I V) *m mxr 2 2 A.
  by rewrite /A' /A !op_mul_mx // eU' embed01 mulmxA.
have ea : project A' 0 1 = su2_dagger FS a by rewrite -hV; apply: (project_left P) eA.
cbv zeta; rewrite ea det_dagger; case: overrelax => [U''|]; last by move=> e0; rewrite e0 eqxx in d0.
rewrite dagger_dagger => -[V' [rV' dV' hV' _ eU'']]; exists U'' => //.
rewrite eU'' eU' mulmxA -(M_mul P); have -> : su2_mul FS V' V = su2_scalar FS (1 : F).
  have h : su2_mul FS (su2_mul FS V' V) a = a by rewrite -(su2_mulA FT) hV.
  have /(congr1 (fun x => su2_mul FS x (su2_dagger FS a))) := h; rewrite -(su2_mulA FT) !(su2_mul_dagger FT).
  rewrite mul_scalar; move: (su2_mul FS V' V) => [x y z w] [e1 e2 e3 e4].
  by apply: su2_ext; rewrite /=; apply: (mulIf d0); rewrite ?mul0r ?mul1r.
by rewrite (@M_scalar _ f u _ _ _ _ _ P) mul1mx.
Qed.

Lemma quat_zero s : real_su2 s -> su2_det FS s = 0 -> s = su2_scalar FS (0 : F).
Proof.
case: s => [a b c d] [/= ra rb rc rd] /eqP.
have sq (x : F) : x \is Num.real -> 0 <= x * x by move=> rx; rewrite -expr2 real_exprn_even_ge0.
rewrite /su2_det /= !paddr_eq0 ?addr_ge0 ?sq // !mulf_eq0 !orbb.
by move=> /andP [/andP [/andP [/eqP -> /eqP ->] /eqP ->] /eqP ->].
Qed.

Lemma quat0 s : real_su2 s -> su2_det FS s = 0 -> M s = 0.
Proof. by move=> rs d0; rewrite (quat_zero rs d0) (@M_scalar _ f u _ _ _ _ _ P) -scalemx1 scale0r. Qed.

End Two.
