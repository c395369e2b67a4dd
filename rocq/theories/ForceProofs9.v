(** The clover action and its force. *)
Set Warnings "-notation-overridden,-ambiguous-paths".
From Coq Require Import ZArith List.
From mathcomp Require Import all_ssreflect all_algebra.
From Verif Require Import LinalgSpec AlgebraModel AlgebraSpec
  GaugeModel GaugeSpec GaugeMatrix GaugeProofs1 MatrixSpec ForceModel ForceSpec
  ForceProofs1 ForceProofs2 ForceProofs3 ForceProofs4 ForceProofs5 ForceProofs6 ForceProofs7.
Set Implicit Arguments.
Unset Strict Implicit.
Unset Printing Implicit Defensive.
Import Order.TTheory GRing.Theory Num.Theory.
Local Open Scope ring_scope.

Ltac sites_on := repeat first [apply: up_on | apply: down_on | done].

Section Leaves.
Variables (M : matrices) (LM : linear M) (L : list Z).
Hypotheses (ML : matrix_laws M) (HL : sizes L).
Variable U : gauge M.
Notation mul := (GaugeModel.mul M).
Notation dag := (dagger M).
Notation line := (path_line (M := M) L U).
Notation up := (up L).
Notation down := (GaugeModel.down L).
Notation scale := (mscale M LM (rquarter M LM)).
Hypotheses (scl : forall a b, mul (scale a) b = scale (mul a b)) (scr : forall a b, mul a (scale b) = scale (mul a b)).
Hypothesis HU : forall d x, (d < length L)%N -> on_lattice L x -> GaugeSpec.unitary M (U d x).
Variables (d1 d2 : nat).
Hypotheses (h1 : (d1 < length L)%N) (h2 : (d2 < length L)%N).

Definition leaf0 x := mul (U d1 x) (mul (U d2 (up d1 x)) (dag (mul (U d2 x) (U d1 (up d2 x))))).
Definition leaf1 x := mul (mul (U d2 (up d1 x)) (dag (mul (U d2 x) (U d1 (up d2 x))))) (U d1 x).

Lemma leaf0_line x : on_lattice L x -> leaf0 x = line (leaf_path d1 d2 0) x.
Proof.
move=> hx; rewrite /leaf0 /= (m_one_r M ML) (m_dag_mul M ML) (up_comm L d2 d1) !down_up; sites_on.
Qed.

Lemma leaf1_line x : on_lattice L x -> leaf1 (down d1 x) = line (leaf_path d1 d2 1) x.
Proof.
move=> hx; set y := down d1 x; have hy : on_lattice L y by exact: down_on.
have e : up d1 y = x by exact: up_down.
rewrite /leaf1 /= e (m_one_r M ML) (m_dag_mul M ML) -e (up_comm L d2 d1) !down_up; sites_on.
by rewrite !(m_assoc M ML).
Qed.

(** A line seen from the next site. *)
Lemma from_above p x : in_dimensions L p -> on_lattice L x -> path_end L p (down d2 x) = down d2 x ->
  mul (mul (dag (U d2 (down d2 x))) (line p (down d2 x))) (U d2 (down d2 x))
  = line (Down d2 :: p ++ [:: Up d2]) x.
Proof.
move=> D hx e; rewrite [RHS]/= (line_cat _ ML) e /= (m_one_r M ML).
by rewrite (m_assoc M ML).
Qed.

Lemma end0 x : on_lattice L x -> path_end L (leaf_path d1 d2 0) x = x.
Proof. by move=> hx; rewrite /path_end /= (up_comm L d2 d1) !down_up; sites_on. Qed.
Lemma end1 x : on_lattice L x -> path_end L (leaf_path d1 d2 1) x = x.
Proof.
move=> hx; set y := down d1 x; have hy : on_lattice L y by exact: down_on.
have e : up d1 y = x by exact: up_down.
by rewrite /path_end /= -e (up_comm L d2 d1) !down_up; sites_on.
Qed.

Lemma dims_two p : all (fun s => (step_dir s == d1) || (step_dir s == d2)) p -> in_dimensions L p.
Proof.
move=> /all_filterP <- s /(filter_In _ _) [_]; by case/orP => /eqP ->.
Qed.
Lemma dims_leaf k : in_dimensions L (leaf_path d1 d2 k).
Proof. by apply: dims_two; case: k => [|[|[|k]]] /=; rewrite !eqxx !orbT. Qed.

Lemma leaves k x : on_lattice L x ->
  (get_clover_leaves M LM L U d1 d2).1 k x = scale (line (leaf_path d1 d2 k) x).
Proof.
move=> hx; have hy : on_lattice L (down d2 x) by exact: down_on.
case: k => [|[|[|k]]]; rewrite /get_clover_leaves; cbv zeta; cbn [fst].
- by rewrite scr -leaf0_line.
- by rewrite scl -leaf1_line.
- rewrite scl scr scl; congr (mscale _ _ _ _).
  rewrite -/(leaf1 _) leaf1_line // from_above //; last 1 first.
  + exact: end1.
  + by rewrite -(line_step_back ML HL HU (s := Down d2) [:: Down d1; Down d2; Up d1; Up d2]).
  exact: dims_leaf.
- rewrite scr scr scl; congr (mscale _ _ _ _).
  rewrite -/(leaf0 _) leaf0_line // from_above //; last 1 first.
  + exact: end0.
  + by rewrite -(line_backtrack ML HL HU [:: Down d2; Up d1; Up d2; Down d1] (s := Down d2) [::]).
  exact: dims_leaf.
Qed.

Lemma leaf_total x : (get_clover_leaves M LM L U d1 d2).2 x =
  let C := (get_clover_leaves M LM L U d1 d2).1 in
  let c := madd M (madd M (madd M (C 0%N x) (C 1%N x)) (C 2%N x)) (C 3%N x) in
  untrace M LM (mscale M LM (rhalf M LM) (msub M LM c (dag c))).
Proof. by []. Qed.
End Leaves.

Section Clover.
Variables (C : numClosedFieldType) (n : nat) (L : list Z).
Hypotheses (n0 : (0 < n)%N) (HL : sizes L).
Notation CM := (complex_matrices C n).
Notation LM := (complex_linear C n).
Notation DM := (dual C n).
Notation DL := (dual_linear C n).
Notation SU := (su_algebra C n).
Implicit Types A B : 'M[C]_n.

Lemma half_real : (2%:R^-1 : C) \is Num.real.
Proof. by rewrite realV realn. Qed.
Lemma nat_unit : (n%:R : C) != 0.
Proof. by rewrite pnatr_eq0 -lt0n. Qed.

Lemma dgB A B : dg (A - B) = dg A - dg B.
Proof. by rewrite dg_add dg_opp. Qed.
Lemma dg_scalar (a : C) : dg (a%:M : 'M[C]_n) = (a^*)%:M.
Proof. by apply/matrixP => i j; rewrite !mxE eq_sym rmorphMn. Qed.

Lemma part_anti A : dg (algebra_part A) = - algebra_part A.
Proof.
rewrite /algebra_part -/(dg A); set B := _ *: _.
have e : dg B = - B by rewrite /B dg_scale dgB dgK (CrealP half_real) -scalerN opprB.
rewrite dgB e dg_scalar opprB addrC; congr (_ - _).
rewrite -raddfN; congr (_%:M); rewrite rmorphM fmorphV rmorph_nat -tr_dg e linearN.
by rewrite mulNr opprK.
Qed.

Lemma part_trace A : \tr (algebra_part A) = 0.
Proof.
rewrite /algebra_part; set B := _ *: _.
by rewrite raddfB /= mxtrace_scalar -mulr_natr divfK ?nat_unit // subrr.
Qed.

(** The projection is orthogonal. *)
Lemma part_pairing A B : dg A = - A -> \tr A = 0 ->
  'Re (\tr (A *m algebra_part B)) = 'Re (\tr (A *m B)).
Proof.
move=> a t; rewrite /algebra_part -/(dg B); set B' := _ *: _.
rewrite mulmxBr re_trB mul_mx_scalar mxtraceZ t mulr0 raddf0 subr0.
rewrite /B' -scalemxAr re_trZ ?half_real // mulmxBr re_trB.
have -> : 'Re (\tr (A *m dg B)) = - 'Re (\tr (A *m B)).
  by rewrite -[LHS]re_dg dg_mul dgK a mulmxN re_trN mxtrace_mulC.
move: ('Re _) => r; rewrite opprK.
have -> : r + r = 2%:R * r by rewrite mulr_natl mulr2n.
by rewrite mulKf // pnatr_eq0.
Qed.

Variables (V : links C n) (E : moments C).
Hypotheses (RE : real_momenta n L E) (HV : unitary_links L V).

Lemma scl_C (a b : 'M[C]_n) : GaugeModel.mul CM (mscale CM LM (rquarter CM LM) a) b = mscale CM LM (rquarter CM LM) (GaugeModel.mul CM a b).
Proof. by rewrite /= scalemxAl. Qed.
Lemma scr_C (a b : 'M[C]_n) : GaugeModel.mul CM a (mscale CM LM (rquarter CM LM) b) = mscale CM LM (rquarter CM LM) (GaugeModel.mul CM a b).
Proof. by rewrite /= scalemxAr. Qed.
Lemma scl_D (a b : GaugeModel.mat DM) : GaugeModel.mul DM (mscale DM DL (rquarter DM DL) a) b = mscale DM DL (rquarter DM DL) (GaugeModel.mul DM a b).
Proof. by rewrite /= !scale0r !addr0 scalerDr !scalemxAl. Qed.
Lemma scr_D (a b : GaugeModel.mat DM) : GaugeModel.mul DM a (mscale DM DL (rquarter DM DL) b) = mscale DM DL (rquarter DM DL) (GaugeModel.mul DM a b).
Proof. by rewrite /= !scale0r !addr0 scalerDr !scalemxAr. Qed.

Definition leaf d1 d2 k x : 'M[C]_n := 4%:R^-1 *: (path_line (M := CM) L V (leaf_path d1 d2 k) x : 'M[C]_n).
Definition csum d1 d2 x : 'M[C]_n := algebra_part (clover_sum L V d1 d2 x).

Lemma leaf_at d1 d2 k x : (d1 < length L)%N -> (d2 < length L)%N -> on_lattice L x ->
  (get_clover_leaves CM LM L V d1 d2).1 k x = leaf d1 d2 k x.
Proof. by move=> h1 h2 hx; rewrite (leaves (complex_matrix_laws C n) HL scl_C scr_C HV h1 h2 k hx). Qed.

Lemma csum_at d1 d2 x : (d1 < length L)%N -> (d2 < length L)%N -> on_lattice L x ->
  (get_clover_leaves CM LM L V d1 d2).2 x = csum d1 d2 x.
Proof.
move=> h1 h2 hx; rewrite leaf_total; cbv zeta; rewrite !leaf_at // /csum.
have -> : clover_sum L V d1 d2 x = leaf d1 d2 0%N x + leaf d1 d2 1%N x + leaf d1 d2 2%N x + leaf d1 d2 3%N x :> 'M[C]_n.
  by rewrite /clover_sum !scalerDr.
by [].
Qed.

Lemma clover_value : measure_s_clover CM LM L V = clover_action L V.
Proof.
rewrite /measure_s_clover /clover_action -[over_n CM LM _]/(_ / n%:R); congr (_ / _).
rewrite /pairs big_filter.
suff H l s : (forall p, In p l -> (p.1 < length L)%N /\ (p.2 < length L)%N) ->
  fold_left (fun s dd => let '(dir1, dir2) := dd in
      if Nat.ltb dir1 dir2 then
        let Csum := snd (get_clover_leaves CM LM L V dir1 dir2) in
        fold_left (fun s x => radd CM s (rmul CM LM (rhalf CM LM) (squarenorm CM LM (Csum x)))) (sites L) s
      else s) l s
  = s + \sum_(p <- l | (p.1 < p.2)%N) \sum_(x <- sites L)
     2%:R^-1 * (\sum_i \sum_j `|csum p.1 p.2 x i j| ^+ 2).
  rewrite H ?add0r // => -[a b] /in_prod_iff [/directions_lt ha /directions_lt hb] //.
elim: l s => [|[d1 d2] l IH] s Hl; first by rewrite big_nil addr0.
have [h1 h2] := Hl _ (or_introl (erefl _)).
cbn [fold_left]; rewrite IH => [|p hp]; last by apply: Hl; right.
rewrite big_cons ltb_lt /=; case: ifP => _; last by [].
rewrite addrA; congr (_ + _).
suff F m s' : (forall x, In x m -> on_lattice L x) ->
  fold_left (fun s x => radd CM s (rmul CM LM (rhalf CM LM)
     (squarenorm CM LM (snd (get_clover_leaves CM LM L V d1 d2) x)))) m s'
  = s' + \sum_(x <- m) 2%:R^-1 * (\sum_i \sum_j `|csum d1 d2 x i j| ^+ 2).
  by apply: F => x /sites_In.
elim: m s' => [|x m IHm] s' Hm; first by rewrite big_nil addr0.
cbn [fold_left]; rewrite IHm => [|y hy]; last by apply: Hm; right.
by rewrite big_cons addrA csum_at //; apply: Hm; left.
Qed.

(** The force of the leaves. *)
Definition dclover d1 d2 : C := \sum_(x <- sites L) \sum_(k <- [:: 0; 1; 2; 3]%N)
  'Re (\tr (vel L V E (leaf_path d1 d2 k) x *m (leaf d1 d2 k x *m csum d1 d2 x))).

Lemma clover_work_pair K eps d1 d2 : (d1 < length L)%N -> (d2 < length L)%N ->
  work n L E K (let '(C, Csum) := get_clover_leaves CM LM L V d1 d2 in
    fold_left (fun K k => get_wloop_force_from_wl_add CM SU L V (leaf_path d1 d2 k)
       (fun x => GaugeModel.mul CM (C k x) (Csum x)) eps K) [:: 0; 1; 2; 3]%N K)
  = 2%:R * eps * dclover d1 d2.
Proof.
move=> h1 h2; rewrite /dclover exchange_big.
set G := get_clover_leaves CM LM L V d1 d2.
rewrite (surjective_pairing G); cbv beta iota.
suff H l : work n L E K (fold_left (fun K k => get_wloop_force_from_wl_add CM SU L V (leaf_path d1 d2 k)
       (fun x => GaugeModel.mul CM (G.1 k x) (G.2 x)) eps K) l K)
  = 2%:R * eps * \sum_(k <- l) \sum_(x <- sites L)
      'Re (\tr (vel L V E (leaf_path d1 d2 k) x *m (leaf d1 d2 k x *m csum d1 d2 x))) by exact: H.
elim: l K => [|k l IH] K; first by rewrite work_refl big_nil mulr0.
cbn [fold_left]; rewrite (work_trans _ _ _ _ (get_wloop_force_from_wl_add CM SU L V (leaf_path d1 d2 k)
       (fun x => GaugeModel.mul CM (G.1 k x) (G.2 x)) eps K)).
rewrite IH big_cons mulrDr; congr (_ + _).
rewrite /get_wloop_force_from_wl_add (wloop_work n0 HL V RE _ _ _ (dims_leaf h1 h2 (k := k))).
apply: (congr1 (fun z => 2%:R * eps * z)); apply: sum_sites => x hx.
by rewrite /G (leaf_at k h1 h2 hx) (csum_at h1 h2 hx).
Qed.

Lemma clover_work K eps : work n L E K (get_force_clover_add CM LM SU L V K eps)
  = 2%:R * eps * \sum_(p <- pairs L) dclover p.1 p.2.
Proof.
rewrite /get_force_clover_add /pairs big_filter.
have : forall p, In p (list_prod (directions L) (directions L)) -> (p.1 < length L)%N /\ (p.2 < length L)%N.
  by move=> [a b] /in_prod_iff [/directions_lt ha /directions_lt hb].
elim: (list_prod _ _) K => [|[d1 d2] l IH] K Hl; first by rewrite work_refl big_nil mulr0.
have [h1 h2] := Hl _ (or_introl (erefl _)).
have {}Hl : forall p, In p l -> (p.1 < length L)%N /\ (p.2 < length L)%N by move=> p hp; apply: Hl; right.
rewrite big_cons; cbn [fold_left fst snd]; rewrite ltb_lt; case: ifP => _; last exact: IH.
rewrite (work_trans _ _ _ _ (let '(C, Csum) := get_clover_leaves CM LM L V d1 d2 in
    fold_left (fun K k => get_wloop_force_from_wl_add CM SU L V (leaf_path d1 d2 k)
       (fun x => GaugeModel.mul CM (C k x) (Csum x)) eps K) [:: 0; 1; 2; 3]%N K)).
by rewrite (IH _ Hl) clover_work_pair // mulrDr.
Qed.

(** The derivative of the action. *)
Definition dsum d1 d2 x : 'M[C]_n := \sum_(k <- [:: 0; 1; 2; 3]%N) vel L V E (leaf_path d1 d2 k) x *m leaf d1 d2 k x.

Lemma leaf_dual d1 d2 k x : (d1 < length L)%N -> (d2 < length L)%N -> on_lattice L x ->
  (get_clover_leaves DM DL L (VD V E) d1 d2).1 k x
  = (leaf d1 d2 k x, vel L V E (leaf_path d1 d2 k) x *m leaf d1 d2 k x).
Proof.
move=> h1 h2 hx.
rewrite (leaves (dual_laws C n) HL scl_D scr_D (VD_unitary n0 RE HV) h1 h2 k hx).
rewrite (line_dual n0 HL RE HV (dims_leaf h1 h2 (k := k)) hx).
cbn [mscale dual_linear rquarter fst snd]; rewrite scale0r addr0 /leaf.
by congr (_, _); rewrite -scalemxAr.
Qed.

Lemma csum_dual d1 d2 x : (d1 < length L)%N -> (d2 < length L)%N -> on_lattice L x ->
  (get_clover_leaves DM DL L (VD V E) d1 d2).2 x = (csum d1 d2 x, algebra_part (dsum d1 d2 x)).
Proof.
move=> h1 h2 hx; rewrite leaf_total; cbv zeta; rewrite !leaf_dual //.
rewrite /csum /dsum !big_cons big_nil addr0.
have -> : clover_sum L V d1 d2 x = leaf d1 d2 0%N x + leaf d1 d2 1%N x + leaf d1 d2 2%N x + leaf d1 d2 3%N x :> 'M[C]_n.
  by rewrite /clover_sum !scalerDr.
rewrite !addrA.
cbn [madd dual fst snd msub dual_linear mscale rhalf untrace dagger]; rewrite !scale0r !addr0.
by [].
Qed.

Lemma clover_dual : (measure_s_clover DM DL L (VD V E)).2 = - ((\sum_(p <- pairs L) dclover p.1 p.2) / n%:R).
Proof.
rewrite /measure_s_clover; set F := fold_left _ _ _.
rewrite -[(over_n DM DL F).2]/(F.2 / n%:R) -mulNr; congr (_ / _).
rewrite /F /pairs big_filter big_mkcond.
rewrite (fold_snd (f := fun p : nat * nat => if (p.1 < p.2)%N then - dclover p.1 p.2 else 0)).
  rewrite add0r -sumrN; apply: eq_bigr => p _.
  by case: ifP; rewrite ?oppr0.
move=> [d1 d2] s /in_prod_iff [/directions_lt h1 /directions_lt h2]; cbn [fst snd].
rewrite ltb_lt; case: ifP => _; last by rewrite addr0.
cbv zeta; rewrite (fold_snd (f := fun x => - \sum_(k <- [:: 0; 1; 2; 3]%N)
  'Re (\tr (vel L V E (leaf_path d1 d2 k) x *m (leaf d1 d2 k x *m csum d1 d2 x))))).
  by rewrite sumrN.
move=> x s' /sites_In hx; rewrite (csum_dual h1 h2 hx).
cbn [radd rmul rhalf squarenorm dual dual_linear fst snd]; rewrite mul0r addr0; congr (_ + _).
have H (r : C) : 2%:R^-1 * (r *+ 2) = r by rewrite -[r *+ 2]mulr_natl mulKf // pnatr_eq0.
rewrite H.
rewrite part_anti mulNmx re_trN part_pairing ?part_anti ?part_trace //; congr (- _).
rewrite /dsum mulmx_sumr re_tr_sum; apply: eq_bigr => k _.
by rewrite mxtrace_mulC -mulmxA.
Qed.
End Clover.
