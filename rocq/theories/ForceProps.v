(** C85-C88: gauge actions, lines of links, and their forces. *)
Set Warnings "-notation-overridden,-ambiguous-paths".
From Coq Require Import ZArith List.
From mathcomp Require Import all_ssreflect all_algebra.
From Verif Require Import LinalgSpec AlgebraModel AlgebraSpec AlgebraProofs2 AlgebraProofs4 AlgebraProps
  GaugeModel GaugeSpec GaugeMatrix GaugeProofs1 MatrixSpec ForceModel ForceSpec
  ForceProofs1 ForceProofs2 ForceProofs3 ForceProofs4 ForceProofs5 ForceProofs6 ForceProofs7 ForceProofs8 ForceProofs9
  ForceProofs10.
Set Implicit Arguments.
Unset Strict Implicit.
Unset Printing Implicit Defensive.
Import Order.TTheory GRing.Theory Num.Theory.
Local Open Scope ring_scope.

Notation CM := complex_matrices.
Notation LM := complex_linear.
Notation SU := su_algebra.

(** 2 n eps (a / n). *)
Lemma n_times (C : numClosedFieldType) (n : nat) (eps a : C) : (0 < n)%N ->
  - (2%:R * n%:R * eps * - (a / n%:R)) = 2%:R * eps * a.
Proof.
move=> n0; have nz : (n%:R : C) != 0 by rewrite pnatr_eq0 -lt0n.
rewrite mulrN opprK -!mulrA; congr (_ * _).
by rewrite mulrCA [a / _]mulrC mulVKf.
Qed.

(** ** C85: the plaquette action *)

(** measure_s_wplaq is the sum of 1 - Re Tr P / n over all plaquettes P. *)
Theorem C85_action : forall (C : numClosedFieldType) (n : nat) (L : list Z) (V : links C n), sizes L ->
  measure_s_wplaq (CM C n) L V = loop_action L V (plaquettes L).
Proof. by move=> C n L V HL; apply: wplaq_value. Qed.
Print Assumptions C85_action.

(** The change of the momenta is the gradient of the action: if the links move
    with the velocity E V, the scalar product of E with it is -2 n eps times the
    derivative of the action. *)
Theorem C85_force : forall (C : numClosedFieldType) (n : nat) (L : list Z) (U : C -> links C n) (V : links C n)
    (E : moments C), (0 < n)%N -> sizes L -> (1 < length L)%N -> real_momenta n L E -> links_move L U V E ->
  exists D, derivative (fun t => measure_s_wplaq (CM C n) L (U t)) (measure_s_wplaq (CM C n) L V) D /\
    forall stale K eps,
      work n L E K (get_force_wplaq_add (CM C n) (SU C n) L V stale K eps) = - (2%:R * n%:R * eps * D) /\
      work n L E (fun _ _ _ => 0) (get_force_wplaq (CM C n) (SU C n) L V stale K eps) = - (2%:R * n%:R * eps * D).
Proof.
move=> C n L U V E n0 HL hL RE H.
have D := smooth_deriv (smooth_wplaq HL) (move_rel H) (fun _ _ => erefl).
rewrite wplaq_dual // in D; eexists; split; first exact: D.
move=> stale K eps; rewrite n_times //; split; [exact: force_work|exact: force_zero_work].
Qed.
Print Assumptions C85_force.

(** The energy of the molecular dynamics is constant to first order: the links
    have the velocity E V and the momenta the velocity that update_E gives. *)
Theorem C85_energy : forall (C : numClosedFieldType) (n : nat) (L : list Z) (U : C -> links C n) (V : links C n)
    (P : C -> moments C) (E : moments C) stale (beta : C),
  (0 < n)%N -> sizes L -> (1 < length L)%N -> real_momenta n L E -> links_move L U V E ->
  momenta_move n L P E (update_E_wplaq (CM C n) (LM C n) (SU C n) L V stale E beta) ->
  derivative (fun t => measure_action (CM C n) (LM C n) (SU C n) L beta (measure_s_wplaq (CM C n) L (U t)) (P t))
    (measure_action (CM C n) (LM C n) (SU C n) L beta (measure_s_wplaq (CM C n) L V) E) 0.
Proof.
move=> C n L U V P E stale beta n0 HL hL RE H HP.
have [D [DD W]] := C85_force n0 HL hL RE H.
apply: (energy RE HP DD); rewrite /update_E_wplaq (W _ _ _).1; congr (- (_ * _)).
by rewrite -[over_n _ _ _]/(beta / n%:R) -mulrA [n%:R * _]mulrC divfK // pnatr_eq0 -lt0n.
Qed.
Print Assumptions C85_energy.

(** ** C86: lines and loops of links along any path *)

(** At the end of the path get_wilson_line gives the product of the links along it. *)
Theorem C86_line : forall (M : matrices) (L : list Z) (U : gauge M) (path : list step), matrix_laws M -> sizes L ->
  (1 < length path)%N -> exists R, get_wilson_line M L U path = Some R /\
    forall x, on_lattice L x -> R (path_end L path x) = path_line L U path x.
Proof. by move=> M L U path ML HL; apply: wilson_line. Qed.
Print Assumptions C86_line.

(** Not for a path of one step: the element after its end is read. *)
Theorem C86_line_refuted : forall (M : matrices) (L : list Z) (U : gauge M) (s : step),
  get_wilson_line M L U [:: s] = None.
Proof. by []. Qed.
Print Assumptions C86_line_refuted.

(** The force of a closed path is the gradient of the sum of Re Tr of the loops. *)
Theorem C86_force : forall (C : numClosedFieldType) (n : nat) (L : list Z) (U : C -> links C n) (V : links C n)
    (E : moments C) (path : list step), (0 < n)%N -> sizes L -> real_momenta n L E -> links_move L U V E ->
  unitary_links L V -> in_dimensions L path -> (1 < length path)%N -> closed_path L path ->
  exists D, derivative (fun t => loop_sum L (U t) path) (loop_sum L V path) D /\
    forall eps K, exists K', get_wloop_force_add (CM C n) (SU C n) L V path eps K = Some K' /\
      work n L E K K' = 2%:R * eps * D.
Proof.
move=> C n L U V E path n0 HL RE H HV D lp cp; exists (dloop L V E path); split; first exact: loop_deriv.
by move=> eps K; apply: loop_force.
Qed.
Print Assumptions C86_force.

(** With a given field W = (line along the path) A, also of an open path: the
    gradient of the sum of Re Tr of it, as far as it moves with the links of the line. *)
Theorem C86_given_line : forall (C : numClosedFieldType) (n : nat) (L : list Z) (U : C -> links C n) (V : links C n)
    (E : moments C) (path : list step) (A W : site -> 'M[C]_n), (0 < n)%N -> sizes L -> real_momenta n L E ->
  links_move L U V E -> unitary_links L V -> in_dimensions L path ->
  (forall x, on_lattice L x -> W x = (path_line (M := CM C n) L V path x : 'M[C]_n) *m A x) ->
  exists D, derivative (fun t => \sum_(x <- sites L) 'Re (\tr ((path_line (M := CM C n) L (U t) path x : 'M[C]_n) *m A x)))
      (\sum_(x <- sites L) 'Re (\tr (W x))) D /\
    forall eps K, work n L E K (get_wloop_force_from_wl_add (CM C n) (SU C n) L V path W eps K) = 2%:R * eps * D.
Proof.
move=> C n L U V E path A W n0 HL RE H HV D HW.
exists (\sum_(x <- sites L) 'Re (\tr (vel L V E path x *m ((path_line (M := CM C n) L V path x : 'M[C]_n) *m A x)))); split.
  have := line_deriv n0 HL RE HV A H D.
  have -> : \sum_(x <- sites L) 'Re (\tr (W x))
     = \sum_(x <- sites L) 'Re (\tr ((path_line (M := CM C n) L V path x : 'M[C]_n) *m A x)) by
    apply: sum_sites => x hx; rewrite HW.
  by [].
move=> eps K; rewrite /get_wloop_force_from_wl_add (wloop_work n0 HL V RE _ _ _ D).
by apply: (congr1 (fun z => 2%:R * eps * z)); apply: sum_sites => x hx; rewrite HW.
Qed.
Print Assumptions C86_given_line.

(** ** C87: the improved action *)

Theorem C87_action : forall (C : numClosedFieldType) (n : nat) (L : list Z) (V : links C n) (c11 c12 : C), sizes L ->
  unitary_links L V -> measure_s_impr (CM C n) (LM C n) L V c11 c12
  = c11 * loop_action L V (plaquettes L) + c12 * loop_action L V (rectangles L).
Proof. by move=> C n L V c11 c12 HL; apply: impr_value. Qed.
Print Assumptions C87_action.

Theorem C87_force : forall (C : numClosedFieldType) (n : nat) (L : list Z) (U : C -> links C n) (V : links C n)
    (E : moments C) (c11 c12 : C), (0 < n)%N -> sizes L -> (1 < length L)%N -> real_momenta n L E ->
  links_move L U V E -> unitary_links L V ->
  exists D, derivative (fun t => measure_s_impr (CM C n) (LM C n) L (U t) c11 c12)
      (measure_s_impr (CM C n) (LM C n) L V c11 c12) D /\
    forall stale K eps,
      work n L E K (get_force_impr_add (CM C n) (SU C n) L V stale K (eps * c11) (eps * c12))
        = - (2%:R * n%:R * eps * D) /\
      work n L E (fun _ _ _ => 0) (get_force_impr (CM C n) (SU C n) L V stale K (eps * c11) (eps * c12))
        = - (2%:R * n%:R * eps * D).
Proof.
move=> C n L U V E c11 c12 n0 HL hL RE H HV.
have D := smooth_deriv (smooth_impr HL c11 c12) (move_rel H) (fun _ _ => erefl).
rewrite (impr_dual n0 HL RE HV) in D; eexists; split; first exact: D.
have W stale K eps : work n L E K (get_force_impr_add (CM C n) (SU C n) L V stale K (eps * c11) (eps * c12))
        = - (2%:R * n%:R * eps * - ((c11 * dplaq L V E + c12 * dimpr L V E) / n%:R)).
  by rewrite (n_times _ _ n0) (impr_work n0 HL V RE _ _ _ _ hL) mulrDr !mulrA.
move=> stale K eps; split; first exact: W.
rewrite -(W stale (clear (CM C n) (SU C n) L K)) /get_force_impr; apply: work_from => d x hd; by rewrite clearE.
Qed.
Print Assumptions C87_force.

Theorem C87_energy : forall (C : numClosedFieldType) (n : nat) (L : list Z) (U : C -> links C n) (V : links C n)
    (P : C -> moments C) (E : moments C) stale (c11 c12 beta : C),
  (0 < n)%N -> sizes L -> (1 < length L)%N -> real_momenta n L E -> links_move L U V E -> unitary_links L V ->
  momenta_move n L P E (update_E_impr (CM C n) (LM C n) (SU C n) L V stale c11 c12 E beta) ->
  derivative (fun t => measure_action (CM C n) (LM C n) (SU C n) L beta
      (measure_s_impr (CM C n) (LM C n) L (U t) c11 c12) (P t))
    (measure_action (CM C n) (LM C n) (SU C n) L beta (measure_s_impr (CM C n) (LM C n) L V c11 c12) E) 0.
Proof.
move=> C n L U V P E stale c11 c12 beta n0 HL hL RE H HV HP.
have [D [DD W]] := C87_force c11 c12 n0 HL hL RE H HV.
apply: (energy RE HP DD); apply: etrans (W stale E (beta / n%:R)).1 _; congr (- (_ * _)).
by rewrite -mulrA [n%:R * _]mulrC divfK // pnatr_eq0 -lt0n.
Qed.
Print Assumptions C87_energy.

(** ** C88: the clover action *)

Theorem C88_action : forall (C : numClosedFieldType) (n : nat) (L : list Z) (V : links C n), (0 < n)%N -> sizes L ->
  unitary_links L V -> measure_s_clover (CM C n) (LM C n) L V = clover_action L V.
Proof. by move=> C n L V n0 HL HV; apply: clover_value. Qed.
Print Assumptions C88_action.

Theorem C88_force : forall (C : numClosedFieldType) (n : nat) (L : list Z) (U : C -> links C n) (V : links C n)
    (E : moments C), (0 < n)%N -> sizes L -> real_momenta n L E -> links_move L U V E -> unitary_links L V ->
  exists D, derivative (fun t => measure_s_clover (CM C n) (LM C n) L (U t)) (measure_s_clover (CM C n) (LM C n) L V) D /\
    forall K eps,
      work n L E K (get_force_clover_add (CM C n) (LM C n) (SU C n) L V K eps) = - (2%:R * n%:R * eps * D) /\
      work n L E (fun _ _ _ => 0) (get_force_clover (CM C n) (LM C n) (SU C n) L V K eps) = - (2%:R * n%:R * eps * D).
Proof.
move=> C n L U V E n0 HL RE H HV.
have D := smooth_deriv (smooth_clover HL) (move_rel H) (fun _ _ => erefl).
rewrite (clover_dual n0 HL RE HV) in D; eexists; split; first exact: D.
have W K eps : work n L E K (get_force_clover_add (CM C n) (LM C n) (SU C n) L V K eps)
    = - (2%:R * n%:R * eps * - ((\sum_(p <- pairs L) dclover L V E p.1 p.2) / n%:R)).
  by rewrite n_times //; apply: clover_work.
move=> K eps; split; first exact: W.
rewrite -(W (clear (CM C n) (SU C n) L K)) /get_force_clover; apply: work_from => d x hd; by rewrite clearE.
Qed.
Print Assumptions C88_force.

(** ** Examples for the hypotheses *)

(** For any links and momenta: the beginning of exp(t E) V. *)
Definition curve (C : numClosedFieldType) (n : nat) (V : links C n) (E : moments C) (t : C) : links C n :=
  fun d x => let A := algebra_matrix n (E d x) in (1%:M + t *: A + (t ^+ 2 / 2%:R) *: (A *m A)) *m V d x.

Lemma curve_moves (C : numClosedFieldType) (n : nat) L (V : links C n) (E : moments C) :
  links_move L (curve V E) V E.
Proof.
move=> d x i j _ _; rewrite /curve; set A := algebra_matrix n (E d x).
exists `|(A *m A *m V d x) i j / 2%:R| => t rt _.
rewrite !mulmxDl mul1mx -!scalemxAl.
have -> : (V d x + t *: (A *m V d x) + (t ^+ 2 / 2%:R) *: (A *m A *m V d x)) i j
   = V d x i j + t * (A *m V d x) i j + t ^+ 2 / 2%:R * (A *m A *m V d x) i j.
  by rewrite mxE; congr (_ + _); rewrite mxE //; congr (_ + _); rewrite mxE.
move: (V d x i j) ((A *m V d x) i j) ((A *m A *m V d x) i j) => a b c.
have -> : a + t * b + t ^+ 2 / 2%:R * c - a - t * b = c / 2%:R * t ^+ 2.
  by rewrite -[_ - a - _]addrA -opprD addrC addKr mulrC mulrA mulrAC.
by rewrite normrM normrX.
Qed.

Lemma components_real (C : numClosedFieldType) (n : nat) (s : C) (A : 'M[C]_n) k : (0 < n)%N ->
  s \is Num.real -> (k < n * n - 1)%N -> components s A k \is Num.real.
Proof.
move=> n0 rs hk; rewrite /components (project_scaledE (C73_hypotheses C)) // (project_tr (C73_hypotheses C)) //.
by rewrite ?rpredM ?rpredN ?rpredM // ?Creal_Re // realn.
Qed.

Section Examples.
Variable Cfield : numClosedFieldType.
Definition example_links : links Cfield 3 :=
  fun d x => (if Z.even (List.nth d x Z0) then 'i else 1)%:M.
Definition example_momenta : moments Cfield := fun d x k => (d + k)%:R.

Lemma example_unitary : unitary_links [:: Z.of_nat 4; Z.of_nat 6] example_links.
Proof.
move=> d x _ _; split; rewrite /= /example_links; case: Z.even;
  by rewrite map_scalar_mx tr_scalar_mx -scalar_mxM ?conjCi ?rmorph1 ?mulNr ?mulrN -?expr2 ?sqrCi ?opprK ?mulr1 ?expr1n.
Qed.

Lemma example_real : real_momenta 3 [:: Z.of_nat 4; Z.of_nat 6] example_momenta.
Proof. by move=> d x k _ _ _; apply: realn. Qed.

Lemma example_sizes : sizes [:: Z.of_nat 4; Z.of_nat 6].
Proof. by repeat constructor. Qed.

End Examples.

Example C85_example (Cfield : numClosedFieldType) :
  let L := [:: Z.of_nat 4; Z.of_nat 6] in let E := example_momenta Cfield in let V := example_links Cfield in
  let K := update_E_wplaq (CM Cfield 3) (LM Cfield 3) (SU Cfield 3) L V (fun _ => 0) E 2%:R in
  let P := fun (t : Cfield) d x k => E d x k + t * (K d x k - E d x k) in
  [/\ sizes L, real_momenta 3 L E, unitary_links L V, links_move L (curve V E) V E & momenta_move 3 L P E K].
Proof.
move=> L E V K P; split; [exact: example_sizes|exact: example_real|exact: example_unitary|exact: curve_moves|].
split=> [t rt _ d x k hd hx hk|d x k hd hx hk].
  have r : K d x k \is Num.real.
    rewrite /K /update_E_wplaq force_add_at //; apply: realB; first exact: realn.
    apply: components_real => //; rewrite -[over_n _ _ _]/(2%:R / 3%:R); by apply: rpredM; rewrite ?realV realn.
  by rewrite /P rpredD ?rpredM ?rpredB //; exact: realn.
by exists 0 => t _ _; rewrite /P addrAC addrK subrr normr0 mul0r.
Qed.

Example C86_example : [/\ in_dimensions [:: Z.of_nat 4; Z.of_nat 6] (rectangle_path 0 1), (1 < length (rectangle_path 0 1))%N &
  closed_path [:: Z.of_nat 4; Z.of_nat 6] (rectangle_path 0 1)].
Proof.
split=> [|//|x hx]; first by apply: (dims_path (d1 := 0%N) (d2 := 1%N)).
by apply: wide_end => //; exact: example_sizes.
Qed.

(** Forces are real. *)
Section Real.
Variables (C : numClosedFieldType) (n : nat) (L : list Z) (V : links C n).
Hypothesis n0 : (0 < n)%N.
Definition all_real (K : moments C) : Prop := forall d x k, (k < n * n - 1)%N -> K d x k \is Num.real.

Lemma real_sub K d eps (R : site -> 'M[C]_n) : eps \is Num.real -> all_real K ->
  all_real (set_dir (CM C n) (SU C n) K d (fun x => asub (CM C n) (SU C n) (K d x) (project (CM C n) (SU C n) eps (R x)))).
Proof.
move=> re rK d' x k hk; rewrite /set_dir; case: Nat.eqb; last exact: rK.
by apply: realB; [exact: rK|exact: components_real].
Qed.
Lemma real_add K d eps (R : site -> 'M[C]_n) : eps \is Num.real -> all_real K ->
  all_real (set_dir (CM C n) (SU C n) K d (fun x => aadd (CM C n) (SU C n) (K d x) (project (CM C n) (SU C n) eps (R x)))).
Proof.
move=> re rK d' x k hk; rewrite /set_dir; case: Nat.eqb; last exact: rK.
by apply: realD; [exact: rK|exact: components_real].
Qed.
Lemma real_wloop p W K eps : eps \is Num.real -> all_real K ->
  all_real (get_wloop_force_from_wl_add (CM C n) (SU C n) L V p W eps K).
Proof.
move=> re; rewrite /get_wloop_force_from_wl_add; elim: p W K => [//|[d|d] p IH] W K rK; apply: IH.
- exact: real_sub.
- exact: real_add.
Qed.
Lemma real_impr stale K c11 c12 : c11 \is Num.real -> c12 \is Num.real -> all_real K ->
  all_real (get_force_impr_add (CM C n) (SU C n) L V stale K c11 c12).
Proof.
move=> r1 r2; rewrite /get_force_impr_add; set D := {1}(directions L); move: (directions L) => l rK.
elim: l stale K rK => [//|d l IH] st K rK; cbn [fold_left].
have inner (D' : list nat) st' b K' : all_real K' ->
    all_real (fold_left (impr_dir2 (CM C n) (SU C n) L V c12 d) D' (st', b, K')).2.
  elim: D' st' b K' => [//|d2 D' IHD] st' b K' rK'; cbn [fold_left].
  rewrite [impr_dir2 _ _ _ _ _ _ _ _]/impr_dir2; case: Nat.eqb; first exact: IHD.
  by apply: IHD; case: (nonzero _ _ _) => //; apply: real_wloop.
move: (inner D st true K rK); case: (fold_left _ D _) => [[st' b] K'] rK'.
by apply: IH; apply: real_sub.
Qed.
End Real.

Example C87_example (Cfield : numClosedFieldType) :
  let L := [:: Z.of_nat 4; Z.of_nat 6] in let E := example_momenta Cfield in let V := example_links Cfield in
  let K := update_E_impr (CM Cfield 3) (LM Cfield 3) (SU Cfield 3) L V (fun _ => 0) 2%:R (- 1) E 2%:R in
  let P := fun (t : Cfield) d x k => E d x k + t * (K d x k - E d x k) in
  unitary_links L V /\ links_move L (curve V E) V E /\ momenta_move 3 L P E K.
Proof.
move=> L E V K P; split; [exact: example_unitary|split; [exact: curve_moves|]].
split=> [t rt _ d x k hd hx hk|d x k hd hx hk].
  have r : K d x k \is Num.real.
    apply: real_impr => //; first by apply: rpredM; [apply: rpredM; rewrite ?realV realn|exact: realn].
      by apply: rpredM; [apply: rpredM; rewrite ?realV realn|rewrite rpredN rpred1].
    by move=> d' x' k' _; exact: realn.
  by rewrite /P rpredD ?rpredM ?rpredB //; exact: realn.
by exists 0 => t _ _; rewrite /P addrAC addrK subrr normr0 mul0r.
Qed.
