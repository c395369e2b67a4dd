(** Wilson lines and the force of closed paths. *)
Set Warnings "-notation-overridden,-ambiguous-paths".
From Coq Require Import ZArith List.
From mathcomp Require Import all_ssreflect all_algebra.
From Verif Require Import LinalgSpec AlgebraModel AlgebraSpec
  GaugeModel GaugeSpec GaugeMatrix GaugeProofs1 MatrixSpec ForceModel ForceSpec
  ForceProofs1 ForceProofs2 ForceProofs3 ForceProofs4 ForceProofs5.
Set Implicit Arguments.
Unset Strict Implicit.
Unset Printing Implicit Defensive.
Import Order.TTheory GRing.Theory Num.Theory.
Local Open Scope ring_scope.

Section Lines.
Variables (M : matrices) (L : list Z).
Hypotheses (ML : matrix_laws M) (HL : sizes L).
Variable U : gauge M.

Lemma next_links q R x : on_lattice L x ->
  fold_left (next_link M L U) q R (path_end L q x) = GaugeModel.mul M (R x) (path_line L U q x).
Proof.
elim: q R x => [|s q IH] R x hx; first by rewrite /= (m_one_r M ML).
rewrite path_end_cons [fold_left _ _ _]/= IH; last exact: arrive_on.
by case: s => d /=; rewrite (m_assoc M ML) ?down_up ?up_down.
Qed.

Lemma first_linkE s x : on_lattice L x -> first_link M L U s (arrive L x s) = link_of L U s x.
Proof. by case: s => d hx //=; rewrite down_up. Qed.

Lemma wilson_line path : (1 < length path)%N -> exists R, get_wilson_line M L U path = Some R /\
  forall x, on_lattice L x -> R (path_end L path x) = path_line L U path x.
Proof.
case: path => [//|s [//|s' q]] _; rewrite [get_wilson_line _ _ _ _]/=.
set rest := s' :: q.
eexists; split; first by reflexivity.
move=> x hx.
have E : rest = removelast rest ++ [:: List.last rest s] by exact: app_removelast_last.
have -> : next_link M L U (fold_left (next_link M L U) (removelast rest) (first_link M L U s)) (List.last rest s)
   = fold_left (next_link M L U) rest (first_link M L U s).
  by rewrite [in RHS]E fold_left_app.
by rewrite path_end_cons next_links ?first_linkE //; apply: arrive_on.
Qed.

Lemma short_line path : (length path <= 1)%N -> get_wilson_line M L U path = None.
Proof. by case: path => [|s [|s' q]]. Qed.
End Lines.

Section Loop.
Variables (C : numClosedFieldType) (n : nat) (L : list Z).
Hypotheses (n0 : (0 < n)%N) (HL : sizes L).
Notation CM := (complex_matrices C n).
Notation DM := (dual C n).
Notation SU := (su_algebra C n).
Variables (V : links C n) (E : moments C).
Hypothesis RE : real_momenta n L E.

(** The links with their velocities. *)
Definition VD : gauge DM := fun d x => (V d x, Em n E d x *m V d x).

Lemma move_rel U : links_move L U V E -> rel_links L U VD.
Proof. by move=> H d x h hx i j; apply: H. Qed.

Section Unitary.
Hypothesis HV : unitary_links L V.

Lemma VV d x : (d < length L)%N -> on_lattice L x -> V d x *m dg (V d x) = 1%:M.
Proof. by move=> h hx; have [] := HV h hx. Qed.
Lemma VV' d x : (d < length L)%N -> on_lattice L x -> dg (V d x) *m V d x = 1%:M.
Proof. by move=> h hx; have [] := HV h hx. Qed.

Lemma VD_unitary d x : (d < length L)%N -> on_lattice L x -> GaugeSpec.unitary DM (VD d x).
Proof.
move=> h hx; split; rewrite /= dg_mul (Em_anti n0 RE h hx).
- rewrite VV //; congr (_, _); rewrite mulmxN mulmxN -[Em n E d x *m _ *m _]mulmxA !VV // mulmx1.
  by rewrite mulmxA VV // mul1mx addNr.
- by rewrite VV' //; congr (_, _); rewrite mulmxN mulNmx mulmxA subrr.
Qed.

Lemma line_dual p x : in_dimensions L p -> on_lattice L x ->
  path_line (M := DM) L VD p x = (path_line (M := CM) L V p x,
    vel L V E p x *m path_line (M := CM) L V p x).
Proof.
elim: p x => [|s p IH] x D hx; first by rewrite /= mul0mx.
have [h D'] := dims_cons D; rewrite [LHS]/= [path_line (M := CM) L V (_ :: _) _]/= IH //; last exact: arrive_on.
case: s h {D} => d h.
  move: (path_line (M := CM) L V p _) => l /=; congr (_, _).
  rewrite mulmxDl addrC mulmxA; congr (_ + _); first by rewrite mulmxA.
  by rewrite -!mulmxA [dg _ *m (_ *m _)]mulmxA VV' // mul1mx.
move: (path_line (M := CM) L V p _) => l /=; set y := GaugeModel.down L d x; congr (_, _).
have hy : on_lattice L y by exact: down_on.
rewrite dg_mul (Em_anti n0 RE h hy) -[(map_mx conjC _)^T]/(dg (V d y)).
rewrite -!mulmxA [V d y *m (_ *m _)]mulmxA VV // mul1mx mulmxBl mulmxBr.
by rewrite mulNmx mulmxN.
Qed.

(** The derivative of the sum of the loops. *)
Definition dloop p : C := \sum_(x <- sites L) 'Re (\tr (vel L V E p x *m path_line (M := CM) L V p x)).

Lemma loop_deriv U p : links_move L U V E -> in_dimensions L p ->
  derivative (fun t => loop_sum L (U t) p) (loop_sum L V p) (dloop p).
Proof.
move=> H D; apply: deriv_sum => x /sites_In hx _.
by have := rel_retr (rel_line HL (move_rel H) D hx); rewrite line_dual.
Qed.

Lemma line_deriv U p (A : site -> 'M[C]_n) : links_move L U V E -> in_dimensions L p ->
  derivative (fun t => \sum_(x <- sites L) 'Re (\tr ((path_line (M := CM) L (U t) p x : 'M[C]_n) *m A x)))
    (\sum_(x <- sites L) 'Re (\tr ((path_line (M := CM) L V p x : 'M[C]_n) *m A x)))
    (\sum_(x <- sites L) 'Re (\tr (vel L V E p x *m ((path_line (M := CM) L V p x : 'M[C]_n) *m A x)))).
Proof.
move=> H D; apply: deriv_sum => x /sites_In hx _.
have := rel_line HL (move_rel H) D hx; rewrite line_dual // => R.
have := mderiv_mul R (mderiv_const (A x)); rewrite mulmx0 add0r -mulmxA => R'.
exact: (deriv_re (deriv_trace R')).
Qed.

Lemma loop_force p eps K : in_dimensions L p -> (1 < length p)%N -> closed_path L p ->
  exists K', get_wloop_force_add CM SU L V p eps K = Some K' /\ work n L E K K' = 2%:R * eps * dloop p.
Proof.
move=> D lp c; have [R [ER HR]] := wilson_line (complex_matrix_laws C n) HL V lp.
rewrite /get_wloop_force_add ER; eexists; split; first by reflexivity.
rewrite wloop_work // /dloop; congr (_ * _); apply: sum_sites => x hx.
by rewrite -[in RHS]HR // c.
Qed.
End Unitary.
End Loop.
