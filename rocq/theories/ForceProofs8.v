(** The improved action and its force. *)
Set Warnings "-notation-overridden,-ambiguous-paths".
From Coq Require Import ZArith List.
From mathcomp Require Import all_ssreflect all_algebra.
From Verif Require Import LinalgSpec AlgebraModel AlgebraSpec
  GaugeModel GaugeSpec GaugeMatrix GaugeProofs1 MatrixSpec ForceModel ForceSpec
  ForceProofs1 ForceProofs2 ForceProofs3 ForceProofs4 ForceProofs5 ForceProofs6 ForceProofs7.
Set Implicit Arguments.
Unset Strict Implicit.
Unset Printing Implicit Defensive.
Import Order.TTheory GRing.Theory Num.Theory.
Local Open Scope ring_scope.

Ltac sites_on := repeat first [apply: up_on | apply: down_on | done].

(** The rectangle of the force, of the action of improved_action.h. *)
Definition force_path d1 d2 : list step := [:: Down d2; Up d1; Up d2; Up d2; Down d1; Down d2].
Definition tall_path d1 d2 : list step := [:: Up d1; Up d2; Up d2; Down d1; Down d2; Down d2].

Section Words.
Variables (M : matrices) (L : list Z).
Hypotheses (ML : matrix_laws M) (HL : sizes L).
Variable U : gauge M.
Notation mul := (GaugeModel.mul M).
Notation dag := (dagger M).
Notation line := (path_line (M := M) L U).
Notation up := (up L).
Notation down := (GaugeModel.down L).

Definition square d1 d2 x := mul (mul (U d1 x) (U d2 (up d1 x))) (dag (mul (U d2 x) (U d1 (up d2 x)))).

Lemma square_line d1 d2 x : on_lattice L x -> square d1 d2 x = line (plaquette_path d1 d2) x.
Proof.
move=> hx; rewrite /square /= (m_one_r M ML) (m_dag_mul M ML) (up_comm L d2 d1) !down_up; sites_on.
by rewrite !(m_assoc M ML).
Qed.

Lemma square_end d1 d2 x : on_lattice L x -> path_end L (plaquette_path d1 d2) x = x.
Proof. by move=> hx; rewrite /path_end /= (up_comm L d2 d1) !down_up; sites_on. Qed.

Lemma wide_end d1 d2 x : on_lattice L x -> path_end L (rectangle_path d1 d2) x = x.
Proof.
move=> hx; rewrite /path_end /= (up_comm L d2 d1) down_up; sites_on.
by rewrite (up_comm L d2 d1) !down_up; sites_on.
Qed.

Lemma tall_end d1 d2 x : on_lattice L x -> path_end L (tall_path d1 d2) x = x.
Proof.
by move=> hx; rewrite /path_end /= (up_comm L d2 d1) (up_comm L d2 d1) !down_up; sites_on.
Qed.

Lemma force_end d1 d2 x : on_lattice L x -> path_end L (force_path d1 d2) x = x.
Proof.
move=> hx; rewrite /path_end /= (up_comm L d2 d1) up_down; sites_on.
by rewrite (up_comm L d2 d1) !down_up; sites_on.
Qed.

Lemma force_line d1 d2 x : on_lattice L x ->
  let y := down d2 x in
  mul (dag (mul (dag (mul (U d1 y) (U d2 (up d1 y)))) (U d2 y))) (mul (U d2 (up d1 x)) (dag (mul (U d2 x) (U d1 (up d2 x)))))
  = line (force_path d1 d2) x.
Proof.
move=> hx y; have hy : on_lattice L y by exact: down_on.
have e : up d2 y = x by exact: up_down.
rewrite /= -/y (m_one_r M ML) !(m_dag_mul M ML) !(m_dag_dag M ML).
rewrite (up_comm L d2 d1 y) e (up_comm L d2 d1 x) !down_up; sites_on.
by rewrite !(m_assoc M ML).
Qed.

Section Unitary.
Hypothesis HU : forall d x, (d < length L)%N -> on_lattice L x -> GaugeSpec.unitary M (U d x).
Variables (d1 d2 : nat).
Hypotheses (h1 : (d1 < length L)%N) (h2 : (d2 < length L)%N).

Lemma wide_word x : on_lattice L x ->
  mul (mul (mul (U d1 x) (square d1 d2 (up d1 x))) (dag (U d1 x))) (square d1 d2 x)
  = line (rectangle_path d1 d2) x.
Proof.
move=> hx; have hu : on_lattice L (up d1 x) by exact: up_on.
rewrite !square_line //.
transitivity (line ([:: Up d1] ++ plaquette_path d1 d2 ++ [:: Down d1] ++ plaquette_path d1 d2) x).
  rewrite !(line_cat _ ML) square_end // -[path_end L [:: Up d1] x]/(up d1 x) -[path_end L [:: Down d1] _]/(down d1 (up d1 x)).
  by rewrite down_up // [line [:: Up d1] x]/= [line [:: Down d1] _]/= down_up // !(m_one_r M ML) !(m_assoc M ML).
rewrite -(line_backtrack ML HL HU [:: Up d1; Up d1; Up d2; Down d1] (s := Down d2) [:: Down d1; Down d2]) //.
by rewrite -(line_backtrack ML HL HU [:: Up d1; Up d1; Up d2; Down d1; Down d2] (s := Down d1) [:: Up d2; Down d1; Down d2]).
Qed.

Lemma tall_word x : on_lattice L x ->
  mul (mul (mul (square d1 d2 x) (U d2 x)) (square d1 d2 (up d2 x))) (dag (U d2 x))
  = line (tall_path d1 d2) x.
Proof.
move=> hx; have hu : on_lattice L (up d2 x) by exact: up_on.
rewrite !square_line //.
transitivity (line (plaquette_path d1 d2 ++ [:: Up d2] ++ plaquette_path d1 d2 ++ [:: Down d2]) x).
  rewrite !(line_cat _ ML) square_end // -[path_end L [:: Up d2] x]/(up d2 x) square_end //.
  by rewrite [line [:: Up d2] x]/= [line [:: Down d2] _]/= down_up // !(m_one_r M ML) !(m_assoc M ML).
rewrite -(line_backtrack ML HL HU [:: Up d1; Up d2] (s := Down d1) [:: Up d2; Down d1; Down d2; Down d2]) //.
by rewrite -(line_backtrack ML HL HU [:: Up d1; Up d2; Down d1] (s := Down d2) [:: Up d1; Up d2; Down d1; Down d2; Down d2]).
Qed.
End Unitary.

Lemma force_retr d1 d2 x : on_lattice L x -> retr L U (force_path d1 d2) x = retr L U (tall_path d1 d2) (down d2 x).
Proof.
move=> hx; rewrite (retr_rotate ML U (p := [:: Down d2]) (q := behead (force_path d1 d2))) //.
exact: force_end.
Qed.

Lemma tall_retr d1 d2 x : on_lattice L x -> retr L U (tall_path d1 d2) x = retr L U (rectangle_path d2 d1) x.
Proof. by move=> hx; rewrite -[RHS](retr_reverse ML) //; apply: wide_end. Qed.
End Words.

Section Improved.
Variables (C : numClosedFieldType) (n : nat) (L : list Z).
Hypotheses (n0 : (0 < n)%N) (HL : sizes L).
Notation CM := (complex_matrices C n).
Notation LM := (complex_linear C n).
Notation DM := (dual C n).
Notation DL := (dual_linear C n).
Notation SU := (su_algebra C n).
Variables (V : links C n) (E : moments C).
Hypotheses (RE : real_momenta n L E) (HV : unitary_links L V).
Notation up := (up L).
Notation down := (GaugeModel.down L).
Notation dloop := (dloop L V E).

Definition drect d1 d2 : C := dloop (force_path d1 d2).
Definition dimpr : C := \sum_(d1 <- directions L) \sum_(d2 <- directions L | d2 != d1) drect d1 d2.

Lemma dims_path d1 d2 p : (d1 < length L)%N -> (d2 < length L)%N ->
  all (fun s => (step_dir s == d1) || (step_dir s == d2)) p -> in_dimensions L p.
Proof.
move=> h1 h2 /all_filterP <- s /(filter_In _ _) [_]; by case/orP => /eqP ->.
Qed.

Lemma impr_fold c12 d1 l (st : site -> 'M[C]_n) first K : (d1 < length L)%N ->
  (forall d, In d l -> (d < length L)%N) ->
  let r := fold_left (impr_dir2 CM SU L V c12 d1) l (st, first, K) in
  (forall x, r.1.1 x =
    if first && all (pred1 d1) l then st x
    else (if first then 0 else st x) + \sum_(d2 <- l | d2 != d1) two L V d1 x d2) /\
  work n L E K r.2 = 2%:R * c12 * \sum_(d2 <- l | d2 != d1) drect d1 d2.
Proof.
move=> h1; elim: l st first K => [|d2 l IH] st first K Hl r; rewrite {}/r.
  split=> [x|] /=; first by case: first; rewrite ?big_nil ?addr0.
  by rewrite work_refl big_nil mulr0.
have h2 := Hl d2 (or_introl (erefl _)).
have {}Hl : forall d, In d l -> (d < length L)%N by move=> d h; apply: Hl; right.
rewrite [fold_left _ _ _]/= eqb_eq eq_sym.
have [->|nd] := eqVneq d2 d1.
  have [A B] := IH st first K Hl; split=> [x|]; last by rewrite B big_cons eqxx.
  by rewrite A /= eqxx big_cons eqxx.
set K1 := (X in (_, false, X)); set st1 := (X in (X, false, _)).
have [A B] := IH st1 false K1 Hl; split=> [x|].
  rewrite A /= (negbTE nd) andbF big_cons nd /st1 addrA; congr (_ + _).
  by case: (first) => /=; rewrite ?add0r // -addrA.
rewrite (work_trans _ _ _ _ K1) B big_cons nd mulrDr; congr (_ + _).
rewrite /K1 /=; case: eqP => [->|_] /=; first by rewrite work_refl mulr0 mul0r.
set p := [:: Down d2; Up d1; Up d2; Up d2; Down d1; Down d2].
match goal with |- context [get_wloop_force_from_wl_add _ _ _ _ p _ _ _] => idtac end.
rewrite /get_wloop_force_from_wl_add wloop_work //; last first.
  by apply: (dims_path h1 h2); rewrite /= !eqxx !orbT.
congr (_ * _); apply: sum_sites => x hx; congr ('Re (\tr (_ *m _))).
exact: (force_line (complex_matrix_laws C n) HL V d1 d2 hx).
Qed.

Lemma impr_dirs c11 c12 l (st : site -> 'M[C]_n) K : (1 < length L)%N ->
  (forall d, In d l -> (d < length L)%N) ->
  work n L E K (fold_left (fun st dir1 =>
      let '(tstap, K) := st in
      let '(tstap', _, K') := fold_left (impr_dir2 CM SU L V c12 dir1) (directions L) (tstap, true, K) in
      (tstap', set_dir CM SU K' dir1 (fun x =>
         asub CM SU (K' dir1 x) (project CM SU c11 (GaugeModel.mul CM (V dir1 x) (tstap' x)))))) l (st, K)).2
  = \sum_(d <- l) (2%:R * c11 * (\sum_(x <- sites L) 'Re (\tr (Em n E d x *m (V d x *m staples L V d x))))
      + 2%:R * c12 * \sum_(d2 <- directions L | d2 != d) drect d d2).
Proof.
move=> hL; elim: l st K => [|d1 l IH] st K sub; first by rewrite work_refl big_nil.
have h1 := sub d1 (or_introl (erefl _)).
rewrite [fold_left _ (d1 :: l) _]/= big_cons.
have := impr_fold c12 st true K h1 (fun d h => directions_lt h).
case: (fold_left (impr_dir2 CM SU L V c12 d1) (directions L) (st, true, K)) => [[st1 b] K1]; cbn [fst snd]; move=> [A B].
rewrite (work_trans _ _ _ _ (set_dir CM SU K1 d1 (fun x => asub CM SU (K1 d1 x)
  (project CM SU c11 (GaugeModel.mul CM (V d1 x) (st1 x)))))).
rewrite IH; last by move=> d h; apply: sub; right.
congr (_ + _); rewrite (work_trans _ _ _ _ K1) B work_sub // addrC; congr (_ + _).
congr (_ * _); apply: sum_sites => x hx; congr ('Re (\tr (_ *m (_ *m _)))).
by rewrite A (negbTE (other_direction d1 hL)) add0r.
Qed.

Lemma impr_work stale K c11 c12 : (1 < length L)%N ->
  work n L E K (get_force_impr_add CM SU L V stale K c11 c12)
  = 2%:R * c11 * dplaq L V E + 2%:R * c12 * dimpr.
Proof.
move=> hL; rewrite /dplaq /dimpr !mulr_sumr -big_split /=.
by apply: impr_dirs => // d; apply: directions_lt.
Qed.

Lemma retr_snd p : in_dimensions L p -> \sum_(x <- sites L) (retr (M := DM) L (VD V E) p x).2 = dloop p.
Proof. by move=> D; apply: sum_sites => x hx; rewrite /retr line_dual. Qed.

Lemma square_sum d1 d2 : (d1 < length L)%N -> (d2 < length L)%N ->
  \sum_(x <- sites L) (real DM (trace DM (square L (VD V E) d1 d2 x))).2
  = \sum_(x <- sites L) (up_part L V E d1 d2 x + lo_part L V E d1 d2 x)
    + \sum_(x <- sites L) (up_part L V E d2 d1 x + lo_part L V E d2 d1 x).
Proof.
move=> h1 h2.
rewrite (sum_sites (g := fun x => up_part L V E d1 d2 x + lo_part L V E d2 d1 (up d1 x)
    + (up_part L V E d2 d1 x + lo_part L V E d1 d2 (up d2 x)))); last first.
  by move=> x hx; rewrite -word_parts.
rewrite !big_split /= (sum_shift [:: Up d1] (lo_part L V E d2 d1)) // (sum_shift [:: Up d2] (lo_part L V E d1 d2)) //.
set t1 := \sum_(i <- _) up_part L V E d1 d2 i; set t2 := \sum_(i <- _) lo_part L V E d2 d1 i.
set t3 := \sum_(i <- _) up_part L V E d2 d1 i; set t4 := \sum_(i <- _) lo_part L V E d1 d2 i.
by rewrite [t3 + t4]addrC [t3 + t2]addrC [LHS]addrACA.
Qed.

Lemma drect_tall d1 d2 : (d1 < length L)%N -> (d2 < length L)%N ->
  drect d1 d2 = \sum_(x <- sites L) (retr (M := DM) L (VD V E) (tall_path d1 d2) x).2.
Proof.
move=> h1 h2; rewrite -(sum_shift [:: Down d2]) // /drect -retr_snd; last first.
  by apply: (dims_path h1 h2); rewrite /= !eqxx !orbT.
by apply: sum_sites => x hx; rewrite (force_retr (dual_laws C n)).
Qed.

Lemma drect_wide d1 d2 : (d1 < length L)%N -> (d2 < length L)%N ->
  drect d2 d1 = \sum_(x <- sites L) (retr (M := DM) L (VD V E) (rectangle_path d1 d2) x).2.
Proof.
move=> h1 h2; rewrite (drect_tall h2 h1); apply: sum_sites => x hx; congr (_.2).
exact: (tall_retr (dual_laws C n) HL (VD V E) d2 d1 hx).
Qed.

Lemma impr_dual c11 c12 :
  (measure_s_impr DM DL L (VD V E) (c11, 0) (c12, 0)).2 = - ((c11 * dplaq L V E + c12 * dimpr) / n%:R).
Proof.
have DL' := dual_laws C n; have VU := VD_unitary n0 RE HV.
rewrite /measure_s_impr.
rewrite (fold_snd (f := fun p : nat * nat => if (p.1 < p.2)%N then
  - ((c11 * (\sum_(x <- sites L) (up_part L V E p.1 p.2 x + lo_part L V E p.1 p.2 x)
      + \sum_(x <- sites L) (up_part L V E p.2 p.1 x + lo_part L V E p.2 p.1 x))
    + c12 * (drect p.1 p.2 + drect p.2 p.1)) / n%:R) else 0)).
  rewrite add0r sum_prod /=.
  have -> : - ((c11 * dplaq L V E + c12 * dimpr) / n%:R)
          = - n%:R^-1 * c11 * dplaq L V E + - n%:R^-1 * c12 * dimpr.
    by rewrite -!mulrA -mulrDr mulNr mulrC.
  rewrite dplaq_parts // /dimpr -!sum_pairs !mulr_sumr -big_split; apply: eq_bigr => a _.
  rewrite !mulr_sumr -big_split; apply: eq_bigr => b _ /=.
  case: ifP => _; rewrite ?mulr0 ?addr0 //.
  by rewrite -!mulrA -mulrDr mulNr mulrC.
move=> [d1 d2] s /in_prod_iff [/directions_lt h1 /directions_lt h2] /=.
rewrite ltb_lt; case: ifP => _; last by rewrite addr0.
rewrite (fold_snd (n := n) (f := fun x => - (c12 * ((retr (M := DM) L (VD V E) (rectangle_path d1 d2) x).2
    + (retr (M := DM) L (VD V E) (tall_path d1 d2) x).2) / n%:R))); last first.
  move=> x s' /sites_In hx; rewrite [LHS]/= !mul0r !addr0.
  rewrite /retr -(wide_word DL' HL VU h1 h2 hx) -(tall_word DL' HL VU h1 h2 hx).
  rewrite [real DM]/= [trace DM]/=.
  by rewrite mulrDr mulrDl opprD addrA !mulrN !mulrA.
rewrite (fold_snd (n := n) (f := fun x => - (c11 * (real DM (trace DM (square L (VD V E) d1 d2 x))).2 / n%:R))); last first.
  by move=> x s' hx; rewrite /= mul0r addr0 mulrN mulrA.
rewrite !sumrN -!mulr_suml -!mulr_sumr big_split -(drect_tall h1 h2) -(drect_wide h1 h2) (square_sum h1 h2) -addrA; congr (_ + _).
by rewrite -opprD -mulrDl /= [drect d2 d1 + _]addrC.
Qed.
End Improved.
