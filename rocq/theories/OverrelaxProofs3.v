(** Sweeps over all the subgroups. *)
Set Warnings "-notation-overridden,-ambiguous-paths".
From mathcomp Require Import all_ssreflect all_algebra.
From Verif Require Import FieldTac LinalgModel LinalgSpec LinalgProofs1 LinalgProofs4 MatrixModel MatrixSpec MatrixProofs1 EigenSpec EigenProofs1
  EigenProofs2 SuModel SuSpec SuProofs2 AlgebraModel AlgebraSpec AlgebraProofs3 AlgebraProofs4 AlgebraProofs5 Su2Model Su2Spec Su2Proofs1 Su2Proofs2 Su2Proofs3
  OverrelaxModel OverrelaxProofs1 OverrelaxProofs2.
Set Implicit Arguments.
Unset Strict Implicit.
Unset Printing Implicit Defensive.
Import Order.TTheory GRing.Theory Num.Theory.
Local Open Scope ring_scope.

Section Pairs.
Variables (St : Type) (Inv : St -> Prop) (Q : Prop) (n : nat) (hit : nat -> nat -> St -> option St).
Hypothesis step : forall i j st, (i < j < n)%N -> Inv st ->
  match hit i j st with Some st' => Inv st' | None => Q end.

Lemma pairsP st : Inv st ->
  match loopo 0 n.-1 (fun i st => loopo i.+1 n (fun j st => hit i j st) st) st with
  | Some st' => Inv st' | None => Q end.
Proof.
move=> I0; apply: (loopoP (P := fun _ st => Inv st)) => // i t /andP [_ hi] It.
apply: (loopoP (P := fun _ st => Inv st)) => //.
- by move: hi; rewrite ltn_predRL => /ltnW.
move=> j t' /andP [ij jn] It'; apply: step => //; by rewrite ij jn.
Qed.
End Pairs.

Section PureField.
Variables (K : Type) (zero one : K) (add mul sub div : K -> K -> K) (opp inv : K -> K).
Hypothesis FT : field_theory zero one add mul sub opp div inv eq.
Add Field K_field : FT.
Notation "a + b" := (add a b).
Notation "a * b" := (mul a b).
Notation "a - b" := (sub a b).
Notation "a / b" := (div a b).
Notation "- a" := (opp a).
Lemma cx_mul x y r i J : J * J = - one -> (x + J * y) * (r + J * i) = x * r - y * i + J * (x * i + y * r).
Proof. move=> H; ring [H]. Qed.
Variables (a b c d r00 i00 r01 i01 r10 i10 r11 i11 h : K).
(* real and imaginary parts of the rows of the product *)
Let R00 := d * r00 - c * i00 + (b * r10 - a * i10).
Let I00 := d * i00 + c * r00 + (b * i10 + a * r10).
Let R01 := d * r01 - c * i01 + (b * r11 - a * i11).
Let I01 := d * i01 + c * r01 + (b * i11 + a * r11).
Let R10 := - b * r00 - a * i00 + (d * r10 - - c * i10).
Let I10 := - b * i00 + a * r00 + (d * i10 + - c * r10).
Let R11 := - b * r01 - a * i01 + (d * r11 - - c * i11).
Let I11 := - b * i01 + a * r01 + (d * i11 + - c * r11).
Let A := (i01 + i10) * h. Let B := (r01 - r10) * h. Let C := (i00 - i11) * h. Let D := (r00 + r11) * h.
Lemma proj_a : (I01 + I10) * h = d * A + a * D - b * C + c * B.
Proof. rewrite /I01 /I10 /A /B /C /D; ring. Qed.
Lemma proj_b : (R01 - R10) * h = d * B + b * D - c * A + a * C.
Proof. rewrite /R01 /R10 /A /B /C /D; ring. Qed.
Lemma proj_c : (I00 - I11) * h = d * C + c * D - a * B + b * A.
Proof. rewrite /I00 /I11 /A /B /C /D; ring. Qed.
Lemma proj_d : (R00 + R11) * h = d * D - a * A - b * B - c * C.
Proof. rewrite /R00 /R11 /A /B /C /D; ring. Qed.
End PureField.

Section Sweeps.
Variables (F : numFieldType) (f : F -> F) (u : F) (cj : {rmorphism F -> F}) (re im root : F -> F) (I : F).
Hypothesis P : complex_parts cj re im root I.
Notation FS := (field_scalars f u).
Notation M q := (mxr 2 2 (su2_matrix FS I q)).
Notation FT := (mc_field F).
Notation project := (project_from_matrix FS re im).


Lemma overlap_same n p q (A : nat -> nat -> F) V : (p < n)%N -> (q < n)%N -> p != q -> real_su2 V ->
  su2_mul FS V (project A p q) = su2_dagger FS (project A p q) ->
  re (\tr (embed2 n p q (su2_matrix FS I V) *m mxr n n A)) = re (\tr (mxr n n A)).
Proof. by move=> pn qn pq rV h; rewrite (overlap P) // (overlap1 f u P A pn qn pq) h. Qed.

Lemma real_le (x r : F) : x \is Num.real -> 0 <= r -> x * x <= r * r -> x <= r.
Proof.
move=> rx r0 h; apply: le_trans (real_ler_norm rx) _.
by rewrite -(@ler_pexpn2r _ 2) ?nnegrE ?normr_ge0 // real_normK // !expr2.
Qed.

Lemma cauchy v q : real_su2 v -> real_su2 q -> su2_det FS v = 1 ->
  su2_trace FS (su2_mul FS v q) <= su2_trace FS (su2_scalar FS (root (su2_det FS q))).
Proof.
move=> rv rq dv; have d0 := det_ge0 rq; case: (P) => C _ _.
rewrite /su2_trace ler_pmul2l; last by rewrite /= add0r -[1 + 1]/(2%:R) ltr0n.
have rvq := real_mul rv rq; have rr := (root_ge0 C) _ d0.
apply: real_le => //; first by case: rvq.
rewrite -[root _ * root _]expr2 (rootK C) // -[su2_det FS q]mul1r -dv -(su2_det_mul FT).
case: rvq; move: (su2_mul FS v q) => w ra rb rc rd; rewrite /su2_det /= ler_addr.
have s (x : F) : x \is Num.real -> 0 <= x * x by move=> rx; rewrite -expr2 real_exprn_even_ge0.
by do !apply: addr_ge0; apply: s.
Qed.

Lemma overlap_max n p q (A : nat -> nat -> F) V W : (p < n)%N -> (q < n)%N -> p != q -> real_su2 V -> real_su2 W ->
  su2_det FS W = 1 -> su2_mul FS V (project A p q) = su2_scalar FS (root (su2_det FS (project A p q))) ->
  re (\tr (embed2 n p q (su2_matrix FS I W) *m mxr n n A)) <= re (\tr (embed2 n p q (su2_matrix FS I V) *m mxr n n A)).
Proof.
move=> pn qn pq rV rW dW h; rewrite !(overlap P) // h ler_add2r; apply: cauchy => //.
exact: (project_real P).
Qed.

Lemma overlap_up n p q (A : nat -> nat -> F) V : (p < n)%N -> (q < n)%N -> p != q -> real_su2 V ->
  su2_mul FS V (project A p q) = su2_scalar FS (root (su2_det FS (project A p q))) ->
  re (\tr (mxr n n A)) <= re (\tr (embed2 n p q (su2_matrix FS I V) *m mxr n n A)).
Proof.
move=> pn qn pq rV h; have r1 : real_su2 (su2_scalar FS (1 : F)) by apply: real_scalar; apply: real1.
rewrite -[mxr n n A in X in X <= _]mul1mx -(@embed_one _ f u I n p q pq).
apply: overlap_max => //.
by rewrite /su2_det /= !mul0r !add0r mul1r.
Qed.

Lemma overrelaxP n U S U' : (0 < n)%N -> special_unitary cj (mxr n n U) ->
  overrelax FS cj re im root I n U S = Some U' ->
  special_unitary cj (mxr n n U') /\
  re (\tr (mxr n n U' *m adjoint cj (mxr n n S))) = re (\tr (mxr n n U *m adjoint cj (mxr n n S))).
Proof.
move=> n0 sU; rewrite /overrelax; set A := op_mul FS n n n U _.
have mA : mxr n n A = mxr n n U *m adjoint cj (mxr n n S) by rewrite /A op_mul_mx // daggerE.
pose Inv (st : mat FS * mat FS) := special_unitary cj (mxr n n (st.1 : nat -> nat -> F)) /\
  (mxr n n (st.2 : nat -> nat -> F) = mxr n n (st.1 : nat -> nat -> F) *m adjoint cj (mxr n n S) /\ re (\tr (mxr n n (st.2 : nat -> nat -> F))) = re (\tr (mxr n n A))).
have := @pairsP _ Inv True n (overrelax_hit FS re im root I n) _ (U, A).
case: loopo => [[U1 A1]|] // H [<-] /=.
have [//|//|s1 [m1 e1]] := H.
  move=> i j [V B] /andP [ij jn] [s1 [m1 e1]]; rewrite /= in s1 m1 e1.
  have ne : i != j by rewrite neq_ltn ij.
  have H1 := overrelax_hitP f u P V B (ltn_trans ij jn) jn ne.
  case E: (overrelax_hit FS re im root I n i j (V, B)) => [[V' B']|//]; move: H1.
  rewrite (E : overrelax_hit FS re im root I n i j (V : nat -> nat -> F, B : nat -> nat -> F) = Some (V', B')) => -[W [[rW dW hW _] [eV eB]]]; rewrite /Inv /= eV eB; split.
    by apply: specialM => //; apply: (special_embed P) => //; exact: ltn_trans ij jn.
  split; first by rewrite m1 mulmxA.
  by rewrite overlap_same // (ltn_trans ij jn).
by rewrite /= -m1 e1 mA.
Qed.

(** The search for the maximum. *)
Definition max_inv n (S : nat -> nat -> F) (e : F) (st : mat FS * mat FS) : Prop :=
  [/\ special_unitary cj (mxr n n (st.2 : nat -> nat -> F)), mxr n n (st.1 : nat -> nat -> F) = mxr n n (st.2 : nat -> nat -> F) *m mxr n n S & e <= re (\tr (mxr n n (st.1 : nat -> nat -> F)))].

Lemma max_hit_inv n S e i j st : (i < n)%N -> (j < n)%N -> i != j -> max_inv n S e st ->
  match max_hit FS re im root I n i j st with Some st' => max_inv n S e st' | None => True end.
Proof.
move=> hi hj ij; case: st => [B V] [s1 m1 e1]; rewrite /= in s1 m1 e1; have H1 := max_hitP f u P B V hi hj ij.
case E: (max_hit FS re im root I n i j (B, V)) => [[B' V']|//]; move: H1.
rewrite (E : max_hit FS re im root I n i j (B : nat -> nat -> F, V : nat -> nat -> F) = Some (B', V')) => -[W [[rW dW hW _] [eB eV]]]; rewrite /max_inv /= eV eB; split.
- by apply: specialM => //; apply: (special_embed P).
- by rewrite m1 mulmxA.
by apply: le_trans e1 _; apply: overlap_up.
Qed.

Section Perm.
Variables (n : nat) (perm : nat -> nat).
Hypothesis perm_range : forall i, (i < n)%N -> (perm i < n)%N.
Hypothesis perm_inj : forall i j, (i < n)%N -> (j < n)%N -> perm i = perm j -> i = j.

Lemma sweep_inv (Inv : mat FS * mat FS -> Prop) Q :
  (forall i j st, (i < n)%N -> (j < n)%N -> i != j -> Inv st ->
     match max_hit FS re im root I n i j st with Some st' => Inv st' | None => Q end) ->
  forall st, Inv st -> match max_sweep FS re im root I n perm st with Some st' => Inv st' | None => Q end.
Proof.
move=> H st I0; apply: (@pairsP _ Inv Q n (fun i j => max_hit FS re im root I n (perm i) (perm j))) => //.
move=> i j {I0}st /andP [ij jn] I0; have hi := ltn_trans ij jn; apply: H => //; try exact: perm_range.
by apply/eqP => /perm_inj E; move: ij; rewrite E // ltnn.
Qed.

Lemma iter_inv (Inv : mat FS * mat FS -> Prop) Q eps k :
  (forall i j st, (i < n)%N -> (j < n)%N -> i != j -> Inv st ->
     match max_hit FS re im root I n i j st with Some st' => Inv st' | None => Q end) ->
  forall st, Inv st -> match max_iter FS cj re im root I eps n perm k st with Some st' => Inv st' | None => Q end.
Proof.
move=> H; elim: k => [|k IH] st I0 //=; have := sweep_inv H I0; case: max_sweep => [st'|//] I1.
by case: max_done => //; apply: IH.
Qed.

Lemma max_rotP eps S U : max_rot FS cj re im root I eps n perm S = Some U ->
  special_unitary cj (mxr n n U) /\ re (\tr (mxr n n S)) <= re (\tr (mxr n n U *m mxr n n S)).
Proof.
rewrite /max_rot; set k := (if _ then _ else _).
have := @iter_inv (max_inv n S (re (\tr (mxr n n S)))) True eps k _ (S, of_scalar FS n (1 : F)).
case: max_iter => [[B V]|] // H [<-] /=; have [||a b c] := H; rewrite /= -?b //.
  by move=> *; apply: max_hit_inv.
by split; rewrite /= ?of_scalarE ?mul1mx //; apply: special1.
Qed.

Lemma overrelax_maxP exp eps S T : (0 < n)%N -> max_rot FS cj re im root I eps n perm (dagger FS cj n n S) = Some T ->
  forall beta draw U, let U' := mxr n n T *m adjoint cj (mxr n n U) *m mxr n n T in
  let ds := re (\tr (U' *m adjoint cj (mxr n n S))) - re (\tr (mxr n n U *m adjoint cj (mxr n n S))) in
  if (n == 2%N) || (0 < ds) || (draw < exp (beta / n%:R * ds))
  then exists2 W, overrelax_max FS cj re im root exp I eps n perm beta draw U S = Some (1%N, W) & mxr n n W = U'
  else overrelax_max FS cj re im root exp I eps n perm beta draw U S = Some (0%N, U).
Proof.
move=> n0 E beta draw U U' ds; rewrite /overrelax_max E.
set W := op_mul FS n n n _ _; have eW : mxr n n W = U' by rewrite /W !op_mul_mx // daggerE.
have -> : re (mul_trace FS n n (fun i j => sub FS (W i j) (U i j)) (dagger FS cj n n S)) = ds.
  rewrite mul_traceE daggerE; have -> : mxr n n (fun i j => sub FS (W i j) (U i j)) = U' - mxr n n U.
    by rewrite -eW; apply/matrixP => i j; rewrite !mxE.
  by rewrite mulmxBl raddfB /= -mulN1r (reD P) (reZ P) ?realN ?real1 // mulN1r.
rewrite (MatrixProofs2.of_natE f u) LinalgProofs3.eqbE /=; case: (n == 2%N) => /=; first by exists W.
by case: (0 < ds) => /=; [exists W|case: (draw < _); [exists W|]].
Qed.
End Perm.

(** Products with an element of the subgroup. *)
Lemma im_cx x y z : x \is Num.real -> y \is Num.real -> im ((x + I * y) * z) = x * im z + y * re z.
Proof.
move=> rx ry; rewrite -{1}[z](parts P).
have -> : (x + I * y) * (re z + I * im z) = x * re z - y * im z + I * (x * im z + y * re z).
  exact: (cx_mul FT _ _ _ _ (II P)).
have rz : re z \is Num.real by case: P => C _ _; exact: (re_real C).
have iz : im z \is Num.real by exact: (im_real P).
by rewrite (im_complex P) // ?(realB, realD) // realM.
Qed.

Lemma imD x y : im (x + y) = im x + im y.
Proof. by rewrite !(imE P) rmorphD opprD addrACA mulrDl. Qed.

Lemma project_left n p q (A A' : nat -> nat -> F) V : (p < n)%N -> (q < n)%N -> p != q -> real_su2 V ->
  mxr n n A' = embed2 n p q (su2_matrix FS I V) *m mxr n n A -> project A' p q = su2_mul FS V (project A p q).
Proof.
move=> pn qn pq [ra rb rc rd]; rewrite -(leftE f u) // => /matrixP E.
have e i j (hi : (i < n)%N) (hj : (j < n)%N) : A' i j = mult_by_2x2_left FS n p q (su2_matrix FS I V) A i j.
  by have := E (Ordinal hi) (Ordinal hj); rewrite !mxE.
have qp : (q == p) = false by rewrite eq_sym (negbTE pq).
have r x : re x \is Num.real by case: P => C _ _; exact: (re_real C).
have app := e p p pn pn; have apq := e p q pn qn; have aqp := e q p qn pn; have aqq := e q q qn qn.
move: app apq aqp aqq; rewrite !left_loop // pn qn !eqxx qp m00 m01 m10 m11 => app apq aqp aqq.
rewrite /project_from_matrix app apq aqp aqq !(reD P) !imD !(re_cx P) ?realN // !im_cx ?realN //.
apply: su2_ext; [exact: (proj_a FT)|exact: (proj_b FT)|exact: (proj_c FT)|exact: (proj_d FT)].
Qed.

End Sweeps.
