(** The change of the momenta by the links of a path. *)
Set Warnings "-notation-overridden,-ambiguous-paths".
From Coq Require Import ZArith List.
From mathcomp Require Import all_ssreflect all_algebra.
From Verif Require Import LinalgSpec AlgebraModel AlgebraSpec AlgebraProofs2 AlgebraProofs4 AlgebraProofs5 AlgebraProps
  GaugeModel GaugeSpec GaugeMatrix GaugeProofs1 MatrixSpec ForceModel ForceSpec
  ForceProofs1 ForceProofs2 ForceProofs3 ForceProofs4.
Set Implicit Arguments.
Unset Strict Implicit.
Unset Printing Implicit Defensive.
Import Order.TTheory GRing.Theory Num.Theory.
Local Open Scope ring_scope.

Lemma directions_iota L : directions L = iota 0 (length L).
Proof. by rewrite /directions; elim: (length L) 0%N => [//|k IH] m /=; rewrite IH. Qed.

Lemma eqb_eq (a b : nat) : Nat.eqb a b = (a == b).
Proof. by case: (Nat.eqb_spec a b) => [->|/eqP/negbTE ->]; rewrite ?eqxx. Qed.

Section Retr.
Variables (C : numClosedFieldType) (n : nat).
Implicit Types A B : 'M[C]_n.

Lemma re_tr0 : 'Re (\tr (0 : 'M[C]_n)) = 0.
Proof. by rewrite mxtrace0 raddf0. Qed.
Lemma re_trD A B : 'Re (\tr (A + B)) = 'Re (\tr A) + 'Re (\tr B).
Proof. by rewrite mxtraceD raddfD. Qed.
Lemma re_trN A : 'Re (\tr (- A)) = - 'Re (\tr A).
Proof. by rewrite linearN raddfN. Qed.
Lemma re_trB A B : 'Re (\tr (A - B)) = 'Re (\tr A) - 'Re (\tr B).
Proof. by rewrite re_trD re_trN. Qed.
Lemma re_trZ s A : s \is Num.real -> 'Re (\tr (s *: A)) = s * 'Re (\tr A).
Proof. by move=> r; rewrite mxtraceZ ReMl. Qed.
Lemma re_tr_sum (T : Type) (l : list T) (F : T -> 'M[C]_n) :
  'Re (\tr (\sum_(i <- l) F i)) = \sum_(i <- l) 'Re (\tr (F i)).
Proof. exact: (big_morph _ re_trD re_tr0). Qed.
End Retr.

Section Work.
Variables (C : numClosedFieldType) (n : nat) (L : list Z).
Hypotheses (n0 : (0 < n)%N) (HL : sizes L).
Notation CM := (complex_matrices C n).
Notation LM := (complex_linear C n).
Notation SU := (su_algebra C n).
Notation FS := (field_scalars (fun x : C => x) 0).
Variables (V : links C n) (E : moments C).
Hypothesis RE : real_momenta n L E.

Definition Em d x : 'M[C]_n := algebra_matrix n (E d x).

Lemma elementsE (A : 'M[C]_n) : mxr n n (elements A) = A.
Proof. by apply/matrixP => i j; rewrite mxE /elements !valK. Qed.

Lemma pairing (a : nat -> C) s A : real_components (n * n - 1) a ->
  \sum_(k < n * n - 1) a k * components s A k = - (2%:R * s * 'Re (\tr (algebra_matrix n a *m A))).
Proof.
move=> R; have P := C73_hypotheses C.
rewrite /algebra_matrix (expand_sum _ _ P n0 R) mulmx_suml re_tr_sum mulr_sumr -sumrN.
apply: eq_bigr => k _.
rewrite /components (project_scaledE P) // (project_tr P) // elementsE.
have [G _] := gen_anti (fun x : C => x) 0 P n0 (ltn_ord k).
rewrite -/(gen _ _ _ _ _ _) G mulNmx re_trN -scalemxAl re_trZ; last exact: R.
by rewrite !mulrN; congr (- _); rewrite [RHS]mulrCA [2%:R * s]mulrC -mulrA.
Qed.

Lemma Em_anti d x : (d < length L)%N -> on_lattice L x -> dg (Em d x) = - Em d x.
Proof.
move=> h hx; have [A _] := expand_anti (fun x : C => x) 0 (C73_hypotheses C) n0 (fun k => @RE d x k h hx).
rewrite -[RHS]A; by apply/matrixP => i j; rewrite !mxE.
Qed.

Lemma work_trans K K' K'' : work n L E K K'' = work n L E K K' + work n L E K' K''.
Proof.
rewrite /work -big_split; apply: eq_bigr => d _; rewrite -big_split; apply: eq_bigr => x _.
rewrite -big_split; apply: eq_bigr => k _ /=; by rewrite -mulrDr [_ - K d x k + _]addrC addrA subrK.
Qed.

Lemma work_refl K : work n L E K K = 0.
Proof. by rewrite /work big1 // => d _; rewrite big1 // => x _; rewrite big1 // => k _; rewrite subrr mulr0. Qed.

(** Momenta of one direction are changed. *)
Lemma work_dir K K' d (c : site -> nat -> C) : (d < length L)%N ->
  (forall d' x k, K' d' x k = if d' == d then K d x k + c x k else K d' x k) ->
  work n L E K K' = \sum_(x <- sites L) \sum_(k < n * n - 1) E d x k * c x k.
Proof.
move=> h H; rewrite /work directions_iota (bigD1_seq d) ?iota_uniq ?mem_iota //=.
rewrite [X in _ + X]big1 ?addr0 => [|d' /negbTE nd].
  apply: eq_bigr => x _; apply: eq_bigr => k _.
  by rewrite H eqxx addrC addKr.
by rewrite big1 // => x _; rewrite big1 // => k _; rewrite H nd subrr mulr0.
Qed.

Lemma work_sub K d eps (R : site -> 'M[C]_n) : (d < length L)%N ->
  work n L E K (set_dir CM SU K d (fun x => asub CM SU (K d x) (project CM SU eps (R x))))
  = 2%:R * eps * \sum_(x <- sites L) 'Re (\tr (Em d x *m R x)).
Proof.
move=> h; rewrite (work_dir h (c := fun x k => - components eps (R x) k)); last first.
  move=> d' x k; rewrite /set_dir; rewrite eqb_eq.
  by case: eqP.
rewrite mulr_sumr; apply: sum_sites => x hx.
rewrite -[RHS]opprK -pairing -?sumrN; last by move=> k hk; apply: RE.
by apply: eq_bigr => k _; rewrite mulrN.
Qed.

Lemma work_add K d eps (R : site -> 'M[C]_n) : (d < length L)%N ->
  work n L E K (set_dir CM SU K d (fun x => aadd CM SU (K d x) (project CM SU eps (R x))))
  = - (2%:R * eps * \sum_(x <- sites L) 'Re (\tr (Em d x *m R x))).
Proof.
move=> h; rewrite (work_dir h (c := fun x k => components eps (R x) k)); last first.
  move=> d' x k; rewrite /set_dir; rewrite eqb_eq.
  by case: eqP.
rewrite mulr_sumr -sumrN; apply: sum_sites => x hx.
by rewrite -pairing // => k hk; apply: RE.
Qed.

(** The velocity of a line of links, up to the line itself. *)
Fixpoint vel (p : list step) (x : site) : 'M[C]_n :=
  match p with
  | nil => 0
  | cons (Up d) q => Em d x + V d x *m vel q (up L d x) *m dg (V d x)
  | cons (Down d) q =>
      let y := GaugeModel.down L d x in dg (V d y) *m (vel q y - Em d y) *m V d y
  end.

Lemma wloop_work p W K eps : in_dimensions L p ->
  work n L E K (snd (fold_left (wloop_step CM SU L V eps) p (W, K)))
  = 2%:R * eps * \sum_(x <- sites L) 'Re (\tr (vel p x *m W x)).
Proof.
elim: p W K => [|s p IH] W K D.
  by rewrite work_refl big1 ?mulr0 // => x _; rewrite mul0mx re_tr0.
have [h D'] := dims_cons D; case: s h {D} => d h; rewrite [fold_left _ _ _]/=.
- rewrite (work_trans _ (set_dir CM SU K d (fun x => asub CM SU (K d x) (project CM SU eps (W x))))).
  rewrite IH // work_sub // -mulrDr; congr (_ * _).
  rewrite -[X in _ + X](sum_shift [:: Up d]) //.
  rewrite -big_split; apply: sum_sites => x hx /=.
  rewrite /path_end /= down_up // mulmxDl re_trD; congr (_ + _).
  by rewrite -!mulmxA [in RHS]mxtrace_mulC -!mulmxA.
set R' := (X in (X, set_dir _ _ _ _ _)).
rewrite (work_trans _ (set_dir CM SU K d (fun x => aadd CM SU (K d x) (project CM SU eps (R' x))))).
rewrite IH // work_add // addrC -mulrBr; congr (_ * _).
rewrite -sumrB -(sum_shift [:: Down d]) //; apply: sum_sites => x hx.
rewrite /path_end /= /R' up_down //.
rewrite -re_trB -mulmxBl; congr ('Re _).
rewrite -!mulmxA [in RHS]mxtrace_mulC -!mulmxA.
by [].
Qed.
End Work.
