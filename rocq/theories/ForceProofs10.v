(** Values of the actions, forces from zero, and the energy. *)
Set Warnings "-notation-overridden,-ambiguous-paths".
From Coq Require Import ZArith List.
From mathcomp Require Import all_ssreflect all_algebra.
From Verif Require Import LinalgSpec AlgebraModel AlgebraSpec
  GaugeModel GaugeSpec GaugeMatrix GaugeProofs1 MatrixSpec ForceModel ForceSpec
  ForceProofs1 ForceProofs2 ForceProofs3 ForceProofs4 ForceProofs5 ForceProofs6 ForceProofs7 ForceProofs8 ForceProofs9.
Set Implicit Arguments.
Unset Strict Implicit.
Unset Printing Implicit Defensive.
Import Order.TTheory GRing.Theory Num.Theory.
Local Open Scope ring_scope.

Section Values.
Variables (C : numClosedFieldType) (n : nat) (L : list Z).
Hypotheses (n0 : (0 < n)%N) (HL : sizes L).
Notation CM := (complex_matrices C n).
Notation LM := (complex_linear C n).
Notation SU := (su_algebra C n).
Variable V : links C n.

Lemma fold_sum (T : Type) (l : list T) (h : C -> T -> C) (f : T -> C) s :
  (forall x s, In x l -> h s x = s + f x) -> fold_left h l s = s + \sum_(x <- l) f x.
Proof.
elim: l s => [|x l IH] s H; first by rewrite big_nil addr0.
cbn [fold_left]; rewrite IH => [|y s' h']; last by apply: H; right.
by rewrite H ?big_cons ?addrA //; left.
Qed.

Lemma fold_pairs (h : C -> nat * nat -> C) (f : nat -> nat -> C) s :
  (forall d1 d2 s, (d1 < length L)%N -> (d2 < length L)%N -> h s (d1, d2) = if (d1 < d2)%N then s + f d1 d2 else s) ->
  fold_left h (list_prod (directions L) (directions L)) s = s + \sum_(p <- pairs L) f p.1 p.2.
Proof.
move=> H; rewrite /pairs big_filter big_mkcond; apply: fold_sum => -[a b] s' /in_prod_iff [/directions_lt ha /directions_lt hb].
by rewrite H //=; case: ifP => _; rewrite ?addr0.
Qed.

Lemma wplaq_value : measure_s_wplaq CM L V = loop_action L V (plaquettes L).
Proof.
rewrite /measure_s_wplaq (fold_pairs (f := fun d1 d2 => \sum_(x <- sites L)
   (1 - 'Re (\tr (path_line (M := CM) L V (plaquette_path d1 d2) x : 'M[C]_n)) / n%:R))).
  by rewrite /loop_action /plaquettes big_map [rzero CM]/= add0r.
move=> d1 d2 s h1 h2; rewrite ltb_lt; case: ifP => _ //.
apply: fold_sum => x s' /sites_In hx.
by rewrite -(square_line (complex_matrix_laws C n)).
Qed.

Lemma impr_value c11 c12 : unitary_links L V -> measure_s_impr CM LM L V c11 c12
  = c11 * loop_action L V (plaquettes L) + c12 * loop_action L V (rectangles L).
Proof.
move=> HV; have ML := complex_matrix_laws C n.
pose g p := \sum_(x <- sites L) (1 - 'Re (\tr (path_line (M := CM) L V p x : 'M[C]_n)) / n%:R).
rewrite /measure_s_impr (fold_pairs (f := fun d1 d2 => c11 * g (plaquette_path d1 d2)
   + c12 * (g (rectangle_path d1 d2) + g (rectangle_path d2 d1)))).
  rewrite /loop_action /plaquettes /rectangles big_cat !big_map [rzero CM]/= add0r.
  by rewrite big_split -!mulr_sumr big_split.
move=> d1 d2 s h1 h2; rewrite ltb_lt; case: ifP => _ //; cbv zeta.
rewrite (fold_sum (f := fun x => c12 * ((1 - 'Re (\tr (path_line (M := CM) L V (rectangle_path d1 d2) x : 'M[C]_n)) / n%:R)
   + (1 - 'Re (\tr (path_line (M := CM) L V (rectangle_path d2 d1) x : 'M[C]_n)) / n%:R)))).
  rewrite (fold_sum (f := fun x => c11 * (1 - 'Re (\tr (path_line (M := CM) L V (plaquette_path d1 d2) x : 'M[C]_n)) / n%:R))).
    by rewrite -!mulr_sumr /g -big_split addrA.
  move=> x s' /sites_In hx; by rewrite -(square_line ML).
move=> x s' /sites_In hx; rewrite mulrDr addrA; congr (_ + _ + _).
  by rewrite -(wide_word ML HL HV h1 h2 hx).
have := tall_retr ML HL V d1 d2 hx; rewrite /retr -(tall_word ML HL HV h1 h2 hx) => e.
exact: (congr1 (fun z : C => c12 * (1 - z / n%:R)) e).
Qed.

Lemma clearE K d x : (d < length L)%N -> clear CM SU L K d x = (fun _ => 0).
Proof.
rewrite /clear -in_directions => h.
suff H l K' : fold_left (fun K d => set_dir CM SU K d (fun _ => azero CM SU)) l K' d x
   = if d \in l then (fun _ => 0) else K' d x by rewrite H h.
elim: l K' => [//|a l IH] K'; cbn [fold_left]; rewrite IH in_cons /set_dir eqb_eq.
by case: (d == a); case: (d \in l).
Qed.

Lemma work_from (E K K' K'' : moments C) : (forall d x, (d < length L)%N -> K d x = K' d x) -> work n L E K K'' = work n L E K' K''.
Proof.
move=> H; apply: big_In => d /directions_lt h; apply: eq_bigr => x _; apply: eq_bigr => k _.
by rewrite H.
Qed.

Lemma force_zero_work (E : moments C) stale K eps : real_momenta n L E -> (1 < length L)%N ->
  work n L E (fun _ _ _ => 0) (get_force_wplaq CM SU L V stale K eps) = 2%:R * eps * dplaq L V E.
Proof.
move=> RE h; rewrite /work /dplaq mulr_sumr; apply: big_In => d /directions_lt hd.
rewrite mulr_sumr; apply: sum_sites => x hx.
rewrite force_at //; transitivity (\sum_(k < n * n - 1) E d x k * kick L V (- eps) d x k).
  by apply: eq_bigr => k _; rewrite subr0.
rewrite /kick pairing //; last by move=> k hk; apply: RE.
by rewrite mulrN mulNr opprK.
Qed.
End Values.

Section Energy.
Variables (C : numClosedFieldType) (n : nat) (L : list Z).
Hypotheses (n0 : (0 < n)%N) (HL : sizes L).
Notation CM := (complex_matrices C n).
Notation LM := (complex_linear C n).
Notation SU := (su_algebra C n).

Lemma e2_value (E : moments C) : real_momenta n L E ->
  measure_e2 CM LM SU L E = 2%:R^-1 * \sum_(d <- directions L) \sum_(x <- sites L) \sum_(k < n * n - 1) E d x k * E d x k.
Proof.
move=> RE; rewrite /measure_e2 -[rmul _ _ _ _]/(_ * _); congr (_ * _).
rewrite (fold_sum (f := fun d => \sum_(x <- sites L) \sum_(k < n * n - 1) E d x k * E d x k)) ?add0r //.
move=> d s /directions_lt hd; apply: fold_sum => x s' /sites_In hx.
rewrite -[radd CM _ _]/(_ + _); congr (_ + _); apply: eq_bigr => k _.
by rewrite real_normK ?expr2 //; apply: RE.
Qed.

Lemma e2_deriv (P : C -> moments C) E K : real_momenta n L E -> momenta_move n L P E K ->
  derivative (fun t => measure_e2 CM LM SU L (P t)) (measure_e2 CM LM SU L E) (work n L E E K).
Proof.
move=> RE [RP H]; rewrite e2_value //.
have : derivative (fun t => 2%:R^-1 * \sum_(d <- directions L) \sum_(x <- sites L) \sum_(k < n * n - 1) P t d x k * P t d x k)
  (2%:R^-1 * \sum_(d <- directions L) \sum_(x <- sites L) \sum_(k < n * n - 1) E d x k * E d x k)
  (2%:R^-1 * \sum_(d <- directions L) \sum_(x <- sites L) \sum_(k < n * n - 1)
     (E d x k * (K d x k - E d x k) + (K d x k - E d x k) * E d x k)).
  apply: deriv_scale; apply: deriv_sum => d /directions_lt hd _; apply: deriv_sum => x /sites_In hx _.
  apply: deriv_sum => k _ _; apply: deriv_mul; exact: H.
have -> : 2%:R^-1 * (\sum_(d <- directions L) \sum_(x <- sites L) \sum_(k < n * n - 1)
     (E d x k * (K d x k - E d x k) + (K d x k - E d x k) * E d x k)) = work n L E E K.
  rewrite /work mulr_sumr; apply: eq_bigr => d _; rewrite mulr_sumr; apply: eq_bigr => x _.
  rewrite mulr_sumr; apply: eq_bigr => k _; rewrite [X in _ + X]mulrC; move: (E d x k * _) => a.
  have -> : a + a = 2%:R * a by rewrite mulr_natl mulr2n.
  by rewrite mulKf // pnatr_eq0.
case=> B HB; exists B => t rt lt; rewrite e2_value; last exact: RP.
exact: HB.
Qed.

(** The energy is constant to first order if the momenta follow the force. *)
Lemma energy (P : C -> moments C) (S : C -> C) E K beta s D : real_momenta n L E -> momenta_move n L P E K ->
  derivative S s D -> work n L E E K = - (2%:R * beta * D) ->
  derivative (fun t => measure_action CM LM SU L beta (S t) (P t)) (measure_action CM LM SU L beta s E) 0.
Proof.
move=> RE M DS W; have := deriv_add (deriv_scale beta DS) (deriv_scale 2%:R^-1 (e2_deriv RE M)).
rewrite W mulrN -mulrA mulKf ?pnatr_eq0 // subrr.
by apply: deriv_ext.
Qed.
End Energy.
