(** Where the hits find nothing to do, or no number. *)
Set Warnings "-notation-overridden,-ambiguous-paths".
From mathcomp Require Import all_ssreflect all_algebra.
From Verif Require Import FieldTac LinalgModel LinalgSpec LinalgProofs1 LinalgProofs4 MatrixModel MatrixSpec MatrixProofs1 EigenSpec EigenProofs1
  EigenProofs2 SuModel SuSpec SuProofs2 AlgebraModel AlgebraSpec AlgebraProofs3 AlgebraProofs4 AlgebraProofs5 Su2Model Su2Spec Su2Proofs1 Su2Proofs2 Su2Proofs3
  OverrelaxModel OverrelaxProofs1 OverrelaxProofs2 OverrelaxProofs3 OverrelaxProofs4.
Set Implicit Arguments.
Unset Strict Implicit.
Unset Printing Implicit Defensive.
Import Order.TTheory GRing.Theory Num.Theory.
Local Open Scope ring_scope.

Section PureField.
Variables (K : Type) (zero one : K) (add mul sub div : K -> K -> K) (opp inv : K -> K).
Hypothesis FT : field_theory zero one add mul sub opp div inv eq.
Add Field K_field : FT.
Notation "a + b" := (add a b).
Notation "a * b" := (mul a b).
Notation "a - b" := (sub a b).
Notation "a / b" := (div a b).
Notation "- a" := (opp a).
Variables (J s : K).
Hypotheses (JJ : J * J = - one) (ss : s * s = one + (one + one)) (two0 : one + one <> zero).
Lemma omega3 : let w := - (one / (one + one)) + J * - (s / (one + one)) in w * (w * w) = one.
Proof.
move=> w; have -> : w * w = - (one / (one + one)) + J * (s / (one + one)).
  rewrite /w.
  have -> : (- (one / (one + one)) + J * - (s / (one + one))) * (- (one / (one + one)) + J * - (s / (one + one)))
    = (one + (J * J) * (s * s) + (one + one) * (J * s)) / (one + one) / (one + one) by field.
  by rewrite JJ ss; field.
rewrite /w; have -> : (- (one / (one + one)) + J * - (s / (one + one))) * (- (one / (one + one)) + J * (s / (one + one)))
   = (one - (J * J) * (s * s)) / (one + one) / (one + one) by field.
by rewrite JJ ss; field.
Qed.
Lemma omega_norm : let w := - (one / (one + one)) + J * - (s / (one + one)) in
  let w' := - (one / (one + one)) + - J * - (s / (one + one)) in w' * w = one.
Proof.
rewrite /=; have -> : (- (one / (one + one)) + - J * - (s / (one + one))) * (- (one / (one + one)) + J * - (s / (one + one)))
   = (one - (J * J) * (s * s)) / (one + one) / (one + one) by field.
by rewrite JJ ss; field.
Qed.
End PureField.

Section Stop.
Variables (F : numFieldType) (f : F -> F) (u : F) (cj : {rmorphism F -> F}) (re im root : F -> F) (I : F).
Hypothesis P : complex_parts cj re im root I.
Notation FS := (field_scalars f u).
Notation M q := (mxr 2 2 (su2_matrix FS I q)).
Notation FT := (mc_field F).
Notation project := (project_from_matrix FS re im).

Lemma mxr_entry n A (B : 'M[F]_n) i j (hi : (i < n)%N) (hj : (j < n)%N) : mxr n n A = B ->
  A i j = B (Ordinal hi) (Ordinal hj).
Proof. by move=> <-; rewrite mxE. Qed.

Lemma project_diag n A p q x y : (p < n)%N -> (q < n)%N -> p != q -> A p q = 0 -> A q p = 0 -> A p p = x -> A q q = y ->
  project A p q = mkSu2 FS (0 : F) (0 : F) ((im x - im y) * half FS) ((re x + re y) * half FS).
Proof.
move=> pn qn pq e1 e2 e3 e4; have im0 : im 0 = 0 by rewrite (imE P) rmorph0 subr0 mul0r.
by rewrite /project_from_matrix e1 e2 e3 e4 /= im0 (re0 P) subrr addr0 mul0r.
Qed.

Lemma project_scalar n A z p q : (p < n)%N -> (q < n)%N -> p != q -> mxr n n A = z%:M ->
  project A p q = su2_scalar FS (re z).
Proof.
move=> pn qn pq E; rewrite (@project_diag n A p q z z) //; try by rewrite (mxr_entry _ _ E) mxE -val_eqE /= ?eqxx ?(negbTE pq) // eq_sym (negbTE pq).
apply: su2_ext; rewrite //=; first by rewrite subrr mul0r.
exact: (half_sum FT (@two0 F)).
Qed.

Lemma max_hit_scalar n p q z A U : (p < n)%N -> (q < n)%N -> p != q -> 0 < re z ->
  mxr n n A = z%:M ->
  match max_hit FS re im root I n p q (A, U) with
  | Some (A', U') => mxr n n (A' : nat -> nat -> F) = mxr n n A /\ mxr n n (U' : nat -> nat -> F) = mxr n n U
  | None => False
  end.
Proof.
move=> pn qn pq z0 E; have := max_hitP f u P A U pn qn pq; cbv zeta; rewrite (project_scalar pn qn pq E).
have d : su2_det FS (su2_scalar FS (re z)) = re z ^+ 2 by rewrite /su2_det /= !mul0r !add0r.
rewrite d; case: max_hit => [[A' U']|]; last by move/eqP; rewrite expf_eq0 /= gt_eqF.
move=> [V [[_ _ _ [_ eV]] [-> ->]]].
have -> : V = su2_scalar FS (1 : F).
  rewrite eV /su2_normalize d; case: (P) => C _ _; rewrite (root_sqr C) ?ltW //.
  by apply: su2_ext; rewrite /= ?mul0r ?oppr0 // divff // gt_eqF.
by rewrite embed_one // !mul1mx.
Qed.

Lemma max_rot_scalar n perm eps z S : (forall i, (i < n)%N -> (perm i < n)%N) ->
  (forall i j, (i < n)%N -> (j < n)%N -> perm i = perm j -> i = j) ->
  0 < re z -> mxr n n S = z%:M ->
  exists2 U, max_rot FS cj re im root I eps n perm S = Some U & mxr n n (U : nat -> nat -> F) = 1%:M.
Proof.
move=> pr pin z0 eS; rewrite /max_rot; set k := (if _ then _ else _).
pose Inv (st : mat FS * mat FS) := mxr n n (st.1 : nat -> nat -> F) = z%:M /\ mxr n n (st.2 : nat -> nat -> F) = 1%:M.
have := @iter_inv _ f u cj re im root I n perm pr pin Inv False eps k _ (S, of_scalar FS n (1 : F)).
case: max_iter => [[B V]|] H /=.
  have [||a b] := H; [| |by exists V].
    move=> i j [A U] hi hj ij [eA eU]; rewrite /= in eA eU; have H1 := max_hit_scalar U hi hj ij z0 eA.
    case E: (max_hit FS re im root I n i j (A, U)) => [[A' U']|]; move: H1.
      rewrite (E : max_hit FS re im root I n i j (A : nat -> nat -> F, U : nat -> nat -> F) = Some (A', U')).
      by move=> [e1 e2]; rewrite /Inv /= e1 e2.
    by rewrite (E : max_hit FS re im root I n i j (A : nat -> nat -> F, U : nat -> nat -> F) = None).
  by rewrite /Inv /= of_scalarE.
exfalso; apply: H.
  move=> i j [A U] hi hj ij [eA eU]; rewrite /= in eA eU; have H1 := max_hit_scalar U hi hj ij z0 eA.
  case E: (max_hit FS re im root I n i j (A, U)) => [[A' U']|]; move: H1.
    rewrite (E : max_hit FS re im root I n i j (A : nat -> nat -> F, U : nat -> nat -> F) = Some (A', U')).
    by move=> [e1 e2]; rewrite /Inv /= e1 e2.
  by rewrite (E : max_hit FS re im root I n i j (A : nat -> nat -> F, U : nat -> nat -> F) = None).
by rewrite /Inv /= of_scalarE.
Qed.

Lemma omega_special (w : F) : cj w * w = 1 -> w * (w * w) = 1 -> special_unitary cj (w%:M : 'M[F]_3).
Proof.
move=> n1 w3; split; last by rewrite det_scalar !exprS expr0 mulr1.
rewrite /unitary (_ : adjoint cj w%:M = (cj w)%:M); first by rewrite -scalar_mxM n1.
by apply/matrixP => i j; rewrite !mxE rmorphMn eq_sym.
Qed.

Lemma max_refuted perm eps : (forall i, (i < 3)%N -> (perm i < 3)%N) ->
  (forall i j, (i < 3)%N -> (j < 3)%N -> perm i = perm j -> i = j) ->
  exists S U V : nat -> nat -> F, [/\ max_rot FS cj re im root I eps 3 perm S = Some U,
    special_unitary cj (mxr 3 3 V) & re (\tr (mxr 3 3 U *m mxr 3 3 S)) < re (\tr (mxr 3 3 V *m mxr 3 3 S))].
Proof.
move=> pr pin; have C : complex_numbers cj re root by case: P.
pose z : F := 1 + I * 4%:R; pose s := root 3%:R.
have rs : s \is Num.real by rewrite realE (root_ge0 C) ?ler0n.
have ss : s * s = 1 + (1 + 1) by rewrite -expr2 (rootK C) ?ler0n // -natrD.
pose x : F := - (1 / (1 + 1)); pose y := - (s / (1 + 1)); pose w := x + I * y.
have r2 : (1 + 1 : F) \is Num.real by rewrite realD ?real1.
have rx : x \is Num.real by rewrite realN realM ?realV ?real1.
have ry : y \is Num.real by rewrite realN realM ?realV.
have rez : re z = 1 by rewrite /z (re_complex P) ?real1 ?realn.
have imz : im z = 4%:R by rewrite /z (im_complex P) ?real1 ?realn.
have z0 : 0 < re z by rewrite rez ltr01.
pose S (i j : nat) : F := if i == j then z else 0.
have eS : mxr 3 3 S = z%:M by apply/matrixP => i j; rewrite !mxE /S -val_eqE; case: eqP.
have [U eU e1] := max_rot_scalar eps pr pin z0 eS.
pose V (i j : nat) : F := if i == j then w else 0.
have eV : mxr 3 3 V = w%:M by apply/matrixP => i j; rewrite !mxE /V -val_eqE; case: eqP.
exists S, U, V; split=> //.
  rewrite eV; apply: omega_special; last exact: (omega3 FT (II P) ss (@two0 F)).
  rewrite {1}/w rmorphD rmorphM (cjI P) !(cj_real C) //.
  exact: (omega_norm FT (II P) ss (@two0 F)).
rewrite e1 mul1mx eV eS -scalar_mxM !mxtrace_scalar -mulr_natl -[w * z *+ 3]mulr_natl (reZ P _ (realn F 3)) (reZ P (w * z) (realn F 3)).
rewrite ltr_pmul2l ?ltr0n // rez /w (re_cx P) // rez imz mulr1.
have -> : y * 4%:R = - (s * 2%:R).
  rewrite /y mulNr -[1 + 1]/(2%:R) (_ : 4%:R = 2%:R * 2%:R :> F) ?mulrA ?divfK ?pnatr_eq0 //.
  by rewrite -natrM.
have s1 : 1 < s by rewrite -(@ltr_pexpn2r _ 2) ?nnegrE ?ler01 ?(root_ge0 C) ?ler0n // (rootK C) ?ler0n // expr1n ltr1n.
rewrite opprK /x -[1 + 1]/(2%:R) addrC ltr_subr_addr.
apply: (@lt_trans _ _ 2%:R); last by rewrite -[X in X < _]mul1r ltr_pmul2r ?ltr0n.
by rewrite -[X in _ < X]/(1 + 1) ltr_add2l ltr_pdivr_mulr ?ltr0n // mul1r ltr1n.
Qed.

Lemma overrelax_none : exists U S : nat -> nat -> F,
  [/\ special_unitary cj (mxr 3 3 U), special_unitary cj (mxr 3 3 S) & overrelax FS cj re im root I 3 U S = None].
Proof.
pose U (i j : nat) : F := if i == j then if i == 0%N then 1 else -1 else 0.
pose S (i j : nat) : F := (i == j)%:R.
have eS : mxr 3 3 S = 1%:M by apply/matrixP => i j; rewrite !mxE.
exists U, S; split; last first.
- rewrite /overrelax; set A := op_mul FS 3 3 3 U _.
  have eA : mxr 3 3 A = mxr 3 3 U by rewrite /A op_mul_mx // daggerE eS adjoint_scalar rmorph1 mulmx1.
  have z : overrelax_hit FS re im root I 3 0 1 (U, A) = None.
    have := overrelax_hitP f u P U A (isT : (0 < 3)%N) (isT : (1 < 3)%N) isT.
    have -> : project A 0 1 = su2_scalar FS (0 : F).
      rewrite (@project_diag 3 A 0 1 1 (-1)) //; try by rewrite (mxr_entry _ _ eA) mxE.
      have i1 : im 1 = 0 by rewrite (imE P) rmorph1 subrr mul0r.
      have i2 : im (-1) = 0 by rewrite (imE P) rmorphN rmorph1 subrr mul0r.
      by apply: su2_ext; rewrite //= ?i1 ?i2 ?subrr ?mul0r // -(reD P) subrr (re0 P) mul0r.
    cbv zeta; case: overrelax_hit => [[U' A']|//] [V [[_ _ _ []]]].
    by rewrite /su2_det /= !mul0r !addr0 eqxx.
  have L St a (body : nat -> St -> option St) st : body a st = None -> loopo a a.+2 body st = None.
    by rewrite /loopo; have -> : (a.+2 - a)%coq_nat = 2%N; [rewrite -[LHS]/(a.+2 - a)%N -addn2 addKn|rewrite /= => ->].
  by rewrite (L _ 0%N) //; exact: (L _ 1%N).
- by rewrite eS; apply: special1.
have cu i : U i i * U i i = 1 by rewrite /U eqxx; case: ifP; rewrite ?mulrNN mulr1.
have cjU i j : cj (U i j) = U i j by rewrite /U; case: ifP => _; [case: ifP|]; rewrite ?rmorphN ?rmorph1 ?rmorph0.
split.
  apply/matrixP => i j; rewrite !mxE (bigD1 i) //= big1 => [|k ki].
    rewrite !mxE cjU addr0; case: (altP (i =P j)) => [<-|ij]; first by rewrite cu.
    by rewrite {2}/U -[(i : nat) == j]/(i == j) (negbTE ij) mulr0.
  by rewrite !mxE {1}/U -[(k : nat) == i]/(k == i) (negbTE ki) rmorph0 mul0r.
rewrite (_ : mxr 3 3 U = diag_mx (\row_i U i i)).
  by rewrite det_diag !big_ord_recl big_ord0 !mxE /U /= !mul1r !mulr1 mulrNN mulr1.
apply/matrixP => i j; rewrite !mxE; case: (altP (i =P j)) => [<-|ij] //.
by rewrite /U -[(i : nat) == j]/(i == j) (negbTE ij).
Qed.

End Stop.
