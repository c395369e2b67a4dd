(** The basis of generators: expansion, orthonormality, scalar product and conjugation. *)
Set Warnings "-notation-overridden,-ambiguous-paths".
From mathcomp Require Import all_ssreflect all_algebra.
From Verif Require Import LinalgModel LinalgSpec LinalgProofs1 LinalgProofs3 LinalgProofs4
  FieldTac MatrixModel MatrixSpec MatrixProofs1 MatrixProofs2 EigenSpec EigenProofs1 EigenProofs2 SuModel SuSpec
  AlgebraModel AlgebraSpec AlgebraProofs1 AlgebraProofs2 AlgebraProofs3 AlgebraProofs4.
Set Implicit Arguments.
Unset Strict Implicit.
Unset Printing Implicit Defensive.
Import Order.TTheory GRing.Theory Num.Theory.
Local Open Scope ring_scope.

Local Arguments MatrixModel.of_nat : simpl never.

Section Basis.
Variables (F : numFieldType) (f : F -> F) (u : F) (cj : {rmorphism F -> F}) (re im root : F -> F) (I : F).
Hypothesis P : complex_parts cj re im root I.
Let C : complex_numbers cj re root. Proof. by case: P. Qed.
Notation S := (field_scalars f u).
Notation nrm := (nrm root).
Notation expand := (expand S cj root I).
Notation project := (project_to_algebra S cj re im root).
Notation unitv := (unitv F).

(** The k-th generator. *)
Definition gen n k : 'M[F]_n := mxr n n (to_matrix S (glist root I n k)).

Lemma expand0 : forall n, mxr n n (expand n (fun _ => 0)) = 0.
Proof.
move=> n; have r1 : (-1 : F) \is Num.real by rewrite rpredN real1.
have := expand_lin f u P n (fun _ => 0) (fun _ => 0) r1.
rewrite (@expand_ext _ f u _ _ _ _ _ P n (fun k => 0 + -1 * 0) (fun _ => 0)) => [E|k _]; last by rewrite mulr0 addr0.
by rewrite E scaleN1r subrr.
Qed.

Lemma expand_trunc : forall n m a, (0 < n)%N -> (m <= n * n - 1)%N -> real_components (n * n - 1) a ->
  mxr n n (expand n (fun k => if (k < m)%N then a k else 0)) = \sum_(k < m) a k *: gen n k.
Proof.
move=> n m a n0 mn R; elim: m mn => [|m IH] mn.
  by rewrite big_ord0 -(expand0 n); apply: (expand_ext P).
rewrite big_ord_recr /= -IH ?(ltnW mn) // /gen -(expand_unit f u P) // -(expand_lin f u P) ?R //.
apply: (expand_ext P) => k kn; rewrite /unitv /AlgebraProofs4.unitv ltnS.
by case: (ltngtP k m) => [_|_|->] /=; rewrite ?mulr0 ?addr0 ?mulr1 ?add0r.
Qed.

Lemma expand_sum : forall n a, (0 < n)%N -> real_components (n * n - 1) a ->
  mxr n n (expand n a) = \sum_(k < n * n - 1) a k *: gen n k.
Proof.
move=> n a n0 R; rewrite -expand_trunc //; apply: (expand_ext P) => k kn.
by rewrite kn.
Qed.

Lemma gen_anti : forall n k, (0 < n)%N -> (k < n * n - 1)%N ->
  antihermitean cj (gen n k) /\ \tr (gen n k) = 0.
Proof.
move=> n k n0 kn; rewrite /gen -(expand_unit f u P) //.
by apply: (expand_anti f u P) => //; apply: unitv_real.
Qed.

Lemma anti_tr_real : forall n (A B : 'M[F]_n), antihermitean cj A -> antihermitean cj B ->
  cj (\tr (adjoint cj A *m B)) = \tr (adjoint cj A *m B).
Proof.
move=> n A B HA HB; rewrite -tr_adjoint adjointM (adjointK C) HB HA !mulNmx !raddfN /=.
by rewrite mxtrace_mulC.
Qed.

Lemma gen_ortho : forall n k l, (0 < n)%N -> (k < n * n - 1)%N -> (l < n * n - 1)%N ->
  \tr (adjoint cj (gen n k) *m gen n l) = (k == l)%:R / 2%:R.
Proof.
move=> n k l n0 kn ln.
have := project_expand f u P n0 (@unitv_real F l (n * n - 1)) kn.
rewrite (project_tr P) // (expand_unit f u P) // -/(gen n k) -/(gen n l).
rewrite (re_fix C); last by apply: anti_tr_real; [case: (gen_anti n0 kn)|case: (gen_anti n0 ln)].
by rewrite /AlgebraProofs4.unitv => <-; rewrite mulrC mulKf // pnatr_eq0.
Qed.

Lemma adjoint_sum : forall n m (g : 'I_m -> 'M[F]_n), adjoint cj (\sum_k g k) = \sum_k adjoint cj (g k).
Proof.
move=> n m g; apply/matrixP => i j; rewrite !mxE !summxE rmorph_sum; apply: eq_bigr => k _; by rewrite !mxE.
Qed.

Lemma algebra_dotE : forall n (a b : nat -> F),
  algebra_dot S n a b = (\sum_(k < n * n - 1) a k * b k) / 2%:R.
Proof.
move=> n a b; rewrite /algebra_dot halfE /=.
by rewrite (loop_sum (fun i => a i * b i)) // add0r big_mkord.
Qed.

Lemma dot_tr : forall n a b, (0 < n)%N -> real_components (n * n - 1) a -> real_components (n * n - 1) b ->
  algebra_dot S n a b = \tr (adjoint cj (mxr n n (expand n a)) *m mxr n n (expand n b)).
Proof.
move=> n a b n0 Ra Rb; rewrite algebra_dotE !expand_sum // adjoint_sum mulmx_suml raddf_sum mulr_suml.
apply: eq_bigr => k _; rewrite mulmx_sumr raddf_sum (bigD1 k) //= big1 ?addr0 => [|l lk].
  rewrite adjointZ -scalemxAl -scalemxAr !mxtraceZ gen_ortho // eqxx (cj_real C); last exact: Ra.
  by rewrite mul1r mulrA.
rewrite adjointZ -scalemxAl -scalemxAr !mxtraceZ gen_ortho // eq_sym -val_eqE in lk *.
have -> : (k == l :> nat) = false by exact: negPf lk.
by rewrite mul0r !mulr0.
Qed.

Lemma project_ext : forall n A B k, (0 < n)%N -> (k < n * n - 1)%N ->
  mxr n n A = mxr n n B -> project n A k = project n B k.
Proof. by move=> n A B k n0 kn E; rewrite !(project_tr P) // E. Qed.

Lemma unitary_r : forall n (U : 'M[F]_n), unitary cj U -> U *m adjoint cj U = 1%:M.
Proof. by move=> n U /mulmx1C. Qed.

Lemma right_conjugationE : forall n U E, (0 < n)%N -> unitary cj (mxr n n U) -> real_components (n * n - 1) E ->
  mxr n n (expand n (right_conjugation S cj re im root I n U E))
  = adjoint cj (mxr n n U) *m mxr n n (expand n E) *m mxr n n U.
Proof.
move=> n U E n0 HU R; rewrite /right_conjugation (expand_project P) // !op_mul_mx // daggerE.
have [A0 T0] := expand_anti f u P n0 R; apply: part_id.
  by rewrite /antihermitean !adjointM (adjointK C) A0 mulNmx mulmxN mulmxA.
by rewrite mxtrace_mulC mulmxA unitary_r // mul1mx.
Qed.

Lemma left_conjugationE : forall n U E, (0 < n)%N -> unitary cj (mxr n n U) -> real_components (n * n - 1) E ->
  mxr n n (expand n (left_conjugation S cj re im root I n U E))
  = mxr n n U *m mxr n n (expand n E) *m adjoint cj (mxr n n U).
Proof.
move=> n U E n0 HU R; rewrite /left_conjugation (expand_project P) // !op_mul_mx // daggerE.
have [A0 T0] := expand_anti f u P n0 R; apply: part_id.
  by rewrite /antihermitean !adjointM (adjointK C) A0 mulNmx mulmxN mulmxA.
by rewrite mxtrace_mulC mulmxA HU mul1mx.
Qed.

Lemma right_real : forall n U E, (0 < n)%N ->
  real_components (n * n - 1) (right_conjugation S cj re im root I n U E).
Proof. by move=> n U E n0; apply: (project_real P). Qed.

Lemma left_real : forall n U E, (0 < n)%N ->
  real_components (n * n - 1) (left_conjugation S cj re im root I n U E).
Proof. by move=> n U E n0; apply: (project_real P). Qed.

Lemma left_right : forall n U E k, (0 < n)%N -> unitary cj (mxr n n U) -> real_components (n * n - 1) E ->
  (k < n * n - 1)%N ->
  left_conjugation S cj re im root I n U (right_conjugation S cj re im root I n U E) k = E k.
Proof.
move=> n U E k n0 HU R kn; rewrite -[RHS](project_expand f u P n0 R kn).
apply: project_ext => //; rewrite !op_mul_mx // daggerE right_conjugationE //.
by rewrite !mulmxA unitary_r // mul1mx -!mulmxA unitary_r // mulmx1.
Qed.

Lemma right_left : forall n U E k, (0 < n)%N -> unitary cj (mxr n n U) -> real_components (n * n - 1) E ->
  (k < n * n - 1)%N ->
  right_conjugation S cj re im root I n U (left_conjugation S cj re im root I n U E) k = E k.
Proof.
move=> n U E k n0 HU R kn; rewrite -[RHS](project_expand f u P n0 R kn).
apply: project_ext => //; rewrite !op_mul_mx // daggerE left_conjugationE //.
by rewrite !mulmxA HU mul1mx -!mulmxA HU mulmx1.
Qed.

Lemma tr_conj : forall n (U V A B : 'M[F]_n), V *m U = 1%:M -> \tr (U *m A *m V *m (U *m B *m V)) = \tr (A *m B).
Proof.
move=> n U V A B E; have E' := mulmx1C E.
have -> : U *m A *m V *m (U *m B *m V) = U *m (A *m (V *m U) *m B *m V) by rewrite !mulmxA.
rewrite E mulmx1 mxtrace_mulC.
by rewrite -[A *m B *m V *m U]mulmxA E mulmx1.
Qed.

Lemma right_dot : forall n U a b, (0 < n)%N -> unitary cj (mxr n n U) ->
  real_components (n * n - 1) a -> real_components (n * n - 1) b ->
  algebra_dot S n (right_conjugation S cj re im root I n U a) (right_conjugation S cj re im root I n U b)
  = algebra_dot S n a b.
Proof.
move=> n U a b n0 HU Ra Rb; rewrite (dot_tr n0 Ra Rb) (dot_tr n0 (right_real U a n0) (right_real U b n0)).
rewrite (right_conjugationE n0 HU Ra) (right_conjugationE n0 HU Rb).
move: (mxr n n (expand n a)) (mxr n n (expand n b)) => A B.
rewrite !adjointM (adjointK C) [_ *m (adjoint cj A *m _)]mulmxA.
by rewrite (tr_conj _ _ (unitary_r HU)).
Qed.

Lemma left_dot : forall n U a b, (0 < n)%N -> unitary cj (mxr n n U) ->
  real_components (n * n - 1) a -> real_components (n * n - 1) b ->
  algebra_dot S n (left_conjugation S cj re im root I n U a) (left_conjugation S cj re im root I n U b)
  = algebra_dot S n a b.
Proof.
move=> n U a b n0 HU Ra Rb; rewrite (dot_tr n0 Ra Rb) (dot_tr n0 (left_real U a n0) (left_real U b n0)).
rewrite (left_conjugationE n0 HU Ra) (left_conjugationE n0 HU Rb).
move: (mxr n n (expand n a)) (mxr n n (expand n b)) => A B.
rewrite !adjointM (adjointK C) [_ *m (adjoint cj A *m _)]mulmxA.
by rewrite (tr_conj _ _ HU).
Qed.

Lemma expand_scaled_mx : forall s n a, s \is Num.real ->
  mxr n n (expand_scaled S cj root I s n a) = s *: mxr n n (expand n a).
Proof.
move=> s n a rs; apply/matrixP => r q; rewrite !mxE (expand_scaledE P) // (expandE P) //.
have V : forall i j, velem I n a (2%:R^-1 * s) i j = s * velem I n a 2%:R^-1 i j.
  move=> i j; rewrite /velem mulrDr; congr (_ + _); first by rewrite mulrA mulrC.
  by rewrite [a _ * (_ * s)]mulrA [_ * s]mulrC mulrCA.
rewrite !V; case: ifP => _; first by rewrite mulrCA.
case: ifP => // _; move: (velem I n a _ _ _) => v; by rewrite rmorphM (cj_real C rs) mulrN.
Qed.

(** *** What the generators are *)

Lemma gen_diag : forall n i, (0 < i)%N -> (i < n)%N ->
  gen n (i - 1) = diag_mx (\row_(j < n) (if (j < i)%N then I / nrm i
                                        else if j == i :> nat then I * (- i%:R / nrm i) else 0)).
Proof.
move=> n [//|i] _ hi; rewrite subn1 /=.
have n0 : (0 < n)%N by apply: leq_ltn_trans hi.
have h : (i < n - 1)%N by rewrite ltn_subRL add1n.
have kn : (i < n * n - 1)%N by apply: leq_trans h _; rewrite leq_sub2r // leq_pmulr.
apply/matrixP => r q; rewrite !mxE to_matrixE; last by have [] := glist_ok root I n0 kn.
rewrite /glist h; pose L := iota 0 i.+1; rewrite -/L -cats1 big_cat big_seq1 big_map [_.1]/= [_.2]/=.
rewrite (eq_bigr (fun j => if (r : nat) == j then (if (r : nat) == q then I / nrm i.+1 else 0) else 0)); last first.
  by move=> j _; rewrite xpair_eqE; case: eqP => //= ->; rewrite eq_sym.
rewrite -[L]/(index_iota 0 i.+1) sum_delta leq0n /= xpair_eqE -val_eqE /=.
case: (r =P q :> nat) => [<-|ne]; last first.
  rewrite if_same add0r mulr0n; case: ifP => // /andP [/eqP a /eqP b]; by case: ne; rewrite a b.
rewrite andbb mulr1n; case: ltnP => h1; last by rewrite add0r.
by rewrite ltn_eqF // addr0.
Qed.

Lemma gen_pair : forall n (i j : 'I_n), (i < j)%N -> let k := pos n i j in
  [/\ (n - 1 <= k)%N, (k.+1 < n * n - 1)%N,
      gen n k = 2%:R^-1 *: (delta_mx i j - delta_mx j i) &
      gen n k.+1 = (I / 2%:R) *: (delta_mx i j + delta_mx j i)].
Proof.
move=> n i j ij k; have n0 : (0 < n)%N by apply: leq_ltn_trans (ltn_ord i).
have k1 : (k.+1 < n * n - 1)%N by apply: pos_lt.
have kn : (k < n * n - 1)%N by apply: ltn_trans k1.
have kg : (n - 1 <= k)%N by apply: pos_ge.
split=> //; apply/matrixP => r q; rewrite !mxE to_matrixE ?(proj1 (glist_ok root I n0 _)) // /glist.
  rewrite ltnNge kg /= -[k]addn0 -[0%N]/(nat_of_bool false) pos_odd pair_pos // big_cons big_seq1 /= !xpair_eqE.
  rewrite -!val_eqE /= mulrBr; congr (_ + _); case: (_ && _) => /=; by rewrite ?mulr1 ?mulr0 ?oppr0.
rewrite ltnNge (leq_trans kg) // /= -[k.+1]addn1 -[1%N]/(nat_of_bool true) pos_odd pair_pos //.
rewrite big_cons big_seq1 /= !xpair_eqE -!val_eqE /= mulrDr; congr (_ + _); case: (_ && _) => /=; by rewrite ?mulr1 ?mulr0.
Qed.

End Basis.
