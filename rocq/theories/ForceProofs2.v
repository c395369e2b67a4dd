(** Matrices with their first derivative. *)
Set Warnings "-notation-overridden,-ambiguous-paths".
From Coq Require Import ZArith List.
From mathcomp Require Import all_ssreflect all_algebra.
From Verif Require Import GaugeModel GaugeSpec GaugeMatrix GaugeProofs1 MatrixSpec ForceModel ForceSpec ForceProofs1.
Set Implicit Arguments.
Unset Strict Implicit.
Unset Printing Implicit Defensive.
Import Order.TTheory GRing.Theory Num.Theory.
Local Open Scope ring_scope.

Section Dual.
Variables (C : numClosedFieldType) (n : nat).
Notation M := 'M[C]_n.
Notation CM := (complex_matrices C n).
Notation LM := (complex_linear C n).

Definition dual : matrices :=
  mkMatrices (M * M)%type (C * C)%type (C * C)%type
    (1%:M, 0) (0, 0)
    (fun a b => (a.1 *m b.1, a.1 *m b.2 + a.2 *m b.1))
    (fun a b => (a.1 + b.1, a.2 + b.2))
    (fun a => (dg a.1, dg a.2))
    (fun a => (\tr a.1, \tr a.2))
    (0, 0) (fun a b => (a.1 + b.1, a.2 + b.2))
    (fun a => ('Re a.1, 'Re a.2))
    (0, 0) (fun a b => (a.1 + b.1, a.2 + b.2))
    (fun t => (1 - t.1 / n%:R, - (t.2 / n%:R)))
    (fun z k => (z.1 / (int_of_Z k)%:~R, z.2 / (int_of_Z k)%:~R))
    (fun t k => (t.1 / (n%:R * (int_of_Z k)%:~R), t.2 / (n%:R * (int_of_Z k)%:~R))).

Definition dual_linear : linear dual :=
  mkLinear dual
    (fun a b => (a.1 - b.1, a.2 - b.2))
    (fun (s : C * C) (a : M * M) => (s.1 *: a.1, s.1 *: a.2 + s.2 *: a.1))
    (fun a : M * M => (a.1 - (\tr a.1 / n%:R)%:M, a.2 - (\tr a.2 / n%:R)%:M))
    (fun a : M * M => (\sum_i \sum_j `|a.1 i j| ^+ 2, 'Re (\tr (dg a.1 *m a.2)) *+ 2))
    (fun a b : C * C => (a.1 * b.1, a.1 * b.2 + a.2 * b.1))
    (fun a : C * C => (a.1 / n%:R, a.2 / n%:R)) (2%:R^-1, 0) (4%:R^-1, 0).

Lemma dg_mul (a b : M) : dg (a *m b) = dg b *m dg a.
Proof. by rewrite /dg map_mxM trmx_mul. Qed.
Lemma dg_add (a b : M) : dg (a + b) = dg a + dg b.
Proof. by rewrite /dg map_mxD linearD. Qed.
Lemma dg_opp (a : M) : dg (- a) = - dg a.
Proof. by apply/matrixP => i j; rewrite !mxE rmorphN. Qed.
Lemma dgK (a : M) : dg (dg a) = a.
Proof. by apply/matrixP => i j; rewrite !mxE conjCK. Qed.
Lemma dg_scale (s : C) (a : M) : dg (s *: a) = s^* *: dg a.
Proof. by apply/matrixP => i j; rewrite !mxE rmorphM. Qed.
Lemma tr_dg (a : M) : \tr (dg a) = (\tr a)^*.
Proof. by rewrite mxtrace_tr /mxtrace rmorph_sum; apply: eq_bigr => i _; rewrite !mxE. Qed.
Lemma re_dg (a : M) : 'Re (\tr (dg a)) = 'Re (\tr a).
Proof. by rewrite tr_dg Re_conj. Qed.

Lemma dual_laws : matrix_laws dual.
Proof.
constructor => /=.
- move=> [a a'] [b b'] [c c'] /=; rewrite mulmxA; congr (_, _).
  by rewrite mulmxDr mulmxDl !mulmxA addrA.
- by move=> [a a'] /=; rewrite !mul1mx mul0mx addr0.
- by move=> [a a'] /=; rewrite !mulmx1 mulmx0 add0r.
- by move=> [a a'] [b b'] [c c'] /=; rewrite !mulmxDr addrACA.
- by move=> [a a'] [b b'] [c c'] /=; rewrite !mulmxDl addrACA.
- by move=> [a a'] /=; rewrite !add0r.
- by move=> [a a'] /=; rewrite !mulmx0 addr0.
- by move=> [a a'] /=; rewrite !mul0mx addr0.
- by move=> [a a'] [b b'] [c c'] /=; rewrite !addrA.
- by move=> [a a'] [b b'] /=; rewrite !dg_mul dg_add !dg_mul addrC.
- by move=> [a a'] [b b'] /=; rewrite !dg_add.
- by move=> [a a'] /=; rewrite !dgK.
- move=> [a a'] [b b'] /=; rewrite mxtrace_mulC; congr (_, _).
  by rewrite !mxtraceD addrC mxtrace_mulC [\tr (a *m b')]mxtrace_mulC.
- by move=> [a a'] [b b'] /=; rewrite !mxtraceD.
- by rewrite mxtrace0.
- by move=> [a a'] /=; rewrite !re_dg.
- by move=> [a a'] [b b'] [c c'] /=; rewrite !addrA.
- by move=> [a a'] /=; rewrite !add0r.
Qed.

Definition rel_m (f : C -> M) (a : GaugeModel.mat dual) : Prop := mderiv f a.1 a.2.
Definition rel_r (f : C -> C) (a : re dual) : Prop := derivative f a.1 a.2.

Lemma rel_mul f g a b : rel_m f a -> rel_m g b ->
  rel_m (fun t => GaugeModel.mul CM (f t) (g t)) (GaugeModel.mul dual a b).
Proof. exact: mderiv_mul. Qed.
Lemma rel_madd f g a b : rel_m f a -> rel_m g b -> rel_m (fun t => madd CM (f t) (g t)) (madd dual a b).
Proof. exact: mderiv_add. Qed.
Lemma rel_dag f a : rel_m f a -> rel_m (fun t => dagger CM (f t)) (dagger dual a).
Proof. exact: mderiv_dag. Qed.
Lemma rel_retr f a : rel_m f a -> rel_r (fun t => real CM (trace CM (f t))) (real dual (trace dual a)).
Proof. by move=> H; apply: deriv_re; apply: deriv_trace. Qed.
Lemma rel_radd f g a b : rel_r f a -> rel_r g b -> rel_r (fun t => radd CM (f t) (g t)) (radd dual a b).
Proof. exact: deriv_add. Qed.
Lemma rel_one_minus f a : rel_r f a ->
  rel_r (fun t => one_minus_over_n CM (f t)) (one_minus_over_n dual a).
Proof.
move=> H; have := deriv_sub (deriv_const 1) (deriv_scale n%:R^-1 H).
rewrite sub0r ![n%:R^-1 * _]mulrC; apply: deriv_ext => t _ /=; by rewrite [n%:R^-1 * _]mulrC.
Qed.
Lemma rel_rmul f g a b : rel_r f a -> rel_r g b ->
  rel_r (fun t => rmul CM LM (f t) (g t)) (rmul dual dual_linear a b).
Proof. exact: deriv_mul. Qed.
Lemma rel_const (c : C) : rel_r (fun _ => c) ((c, 0) : re dual).
Proof. exact: deriv_const. Qed.
Lemma rel_msub f g a b : rel_m f a -> rel_m g b ->
  rel_m (fun t => msub CM LM (f t) (g t)) (msub dual dual_linear a b).
Proof. exact: mderiv_sub. Qed.
Lemma rel_mscale f a (s : C) : rel_m f a ->
  rel_m (fun t => mscale CM LM s (f t)) (mscale dual dual_linear (s, 0) a).
Proof. by move=> H; rewrite /rel_m /= scale0r addr0; apply: mderiv_scale. Qed.
Lemma rel_over_n f a : rel_r f a -> rel_r (fun t => over_n CM LM (f t)) (over_n dual dual_linear a).
Proof.
move=> H; have := deriv_scale n%:R^-1 H.
rewrite ![n%:R^-1 * _]mulrC; apply: deriv_ext => t _ /=; by rewrite [n%:R^-1 * _]mulrC.
Qed.
Lemma rel_untrace f a : rel_m f a ->
  rel_m (fun t => untrace CM LM (f t)) (untrace dual dual_linear a).
Proof.
move=> H; apply: mderiv_sub (H) _; apply: mderiv_scalar.
have := deriv_scale n%:R^-1 (deriv_trace H).
rewrite ![n%:R^-1 * _]mulrC; apply: deriv_ext => t _ /=; by rewrite [n%:R^-1 * _]mulrC.
Qed.

Lemma norm2_tr (A : M) : \sum_i \sum_j `|A i j| ^+ 2 = \tr (dg A *m A).
Proof.
rewrite /mxtrace exchange_big; apply: eq_bigr => j _; rewrite mxE; apply: eq_bigr => i _.
by rewrite !mxE normCKC.
Qed.

Lemma rel_norm f a : rel_m f a ->
  rel_r (fun t => squarenorm CM LM (f t)) (squarenorm dual dual_linear a).
Proof.
move=> H; have D := deriv_trace (mderiv_mul (mderiv_dag H) H).
rewrite /rel_r /= norm2_tr.
have -> : 'Re (\tr (dg a.1 *m a.2)) *+ 2 = \tr (dg a.1 *m a.2 + dg a.2 *m a.1).
  rewrite mxtraceD -[dg a.2 *m a.1]dgK dg_mul dgK tr_dg ReE -mulr_natr divfK //.
  by rewrite pnatr_eq0.
by apply: deriv_ext D => t _; rewrite norm2_tr.
Qed.

Lemma rel_fold (T : Type) (l : list T) (g : C -> C -> T -> C) (h : re dual -> T -> re dual) f s :
  (forall x f s, In x l -> rel_r f s -> rel_r (fun t => g t (f t) x) (h s x)) ->
  rel_r f s -> rel_r (fun t => fold_left (g t) l (f t)) (fold_left h l s).
Proof.
elim: l f s => [|x l IH] f s H F //=.
by apply: IH => [y f' s' yl|]; [apply: H; right|apply: H => //; left].
Qed.

(** Links and their velocities. *)
Definition rel_links (L : list Z) (U : C -> links C n) (UD : gauge dual) : Prop :=
  forall d x, (d < length L)%N -> on_lattice L x -> rel_m (fun t => U t d x) (UD d x).

(** A value computed from the links by such operations. *)
Definition smooth (L : list Z) (f : links C n -> C) (g : gauge dual -> re dual) : Prop :=
  forall U UD, rel_links L U UD -> rel_r (fun t => f (U t)) (g UD).

Lemma smooth_value L f g (UD : gauge dual) (V : links C n) : smooth L f g ->
  (forall d x, (UD d x).1 = V d x) -> (g UD).1 = f V.
Proof.
move=> S E.
pose U (t : C) : links C n := if t == 0 then V else fun d x => V d x + t *: (UD d x).2.
have R : rel_links L U UD.
  move=> d x _ _ i j; exists 0 => t _ _; rewrite mul0r /U E.
  have -> : (if t == 0 then V else fun d x => V d x + t *: (UD d x).2) d x i j
          = V d x i j + t * (UD d x).2 i j.
    by case: eqP => [->|_]; rewrite ?mul0r ?addr0 // !mxE.
  by rewrite addrAC addrK subrr normr0.
case: (S _ _ R) => B H; have := H 0 (rpred0 _); rewrite normr0 => /(_ ler01).
rewrite expr0n mulr0 mul0r subr0 normr_le0 subr_eq0 /U eqxx => /eqP <- //.
Qed.

Lemma smooth_deriv L f g U UD (V : links C n) : smooth L f g -> rel_links L U UD ->
  (forall d x, (UD d x).1 = V d x) -> derivative (fun t => f (U t)) (f V) (g UD).2.
Proof. by move=> S R E; rewrite -(smooth_value S E); apply: S. Qed.

End Dual.
