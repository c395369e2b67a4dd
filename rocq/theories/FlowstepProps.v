(** C94: the integration of the gradient flow. *)
Set Warnings "-notation-overridden,-ambiguous-paths".
From Coq Require Import ZArith List.
From mathcomp Require Import all_ssreflect all_algebra.
From Verif Require Import LinalgSpec AlgebraModel AlgebraSpec
  GaugeModel GaugeSpec GaugeMatrix GaugeProofs1 GaugeProofs2 MatrixSpec ForceModel ForceSpec ForceProps
  GaussModel GaussSpec FlowModel FlowSpec FlowProofs9 FlowProps
  FlowstepModel FlowstepSpec FlowstepProofs1 FlowstepProofs2 FlowstepProofs3 FlowstepProofs4 FlowstepProofs5.
Set Implicit Arguments.
Unset Strict Implicit.
Unset Printing Implicit Defensive.
Import Order.TTheory GRing.Theory Num.Theory.
Local Open Scope ring_scope.

Section Props.
Variables (C : numClosedFieldType) (n : nat).
(** The exponential function, pow(a,-1/3), 4 pi^2 (not used), reunitarize() and
    the two actions that are not modelled. *)
Variables (ex : (nat -> C) -> 'M[C]_n) (power : C -> C) (fourpi2 : C) (reu : 'M[C]_n -> 'M[C]_n).
Variables (fbp flp : links C n -> moments C).
Notation CM := (complex_matrices C n).
Notation LM := (complex_linear C n).
Notation SU := (su_algebra C n).
Notation PG := (su_gauss ex).
Notation QF := (su_flow power fourpi2 reu).
Notation flow L F := (do_gradient_flow_adapt CM LM SU PG QF L F).

(** When the function returns, it has made steps of the three-stage method that
    take the flow time from l0^2/8 exactly to l1^2/8: at least two, each positive,
    not longer than half of the way and accurate, whatever the starting value of
    the step size.  The returned step size is positive and not longer than half of
    the way.  If there is no way to go, nothing is changed. *)
Theorem C94_steps : forall L F fuel V (l0 l1 atol rtol tstep : C) V' ts,
  (forall a, a \is Num.real -> power a \is Num.real) ->
  l0 \is Num.real -> l1 \is Num.real -> atol \is Num.real -> rtol \is Num.real -> 0 <= tstep ->
  flow L F fuel V l0 l1 atol rtol tstep = Some (V', ts) ->
  let t0 := l0 ^+ 2 / 8%:R in let t1 := l1 ^+ 2 / 8%:R in
  (t1 <= t0 -> V' = V /\ ts = tstep) /\
  (t0 < t1 -> exists hs, [/\ (1 < size hs)%N, \sum_(h <- hs) h = t1 - t0,
     flows L ex F reu (atol * sqrtC 2%:R) rtol ((t1 - t0) / 2%:R) hs V V' & 0 < ts <= (t1 - t0) / 2%:R]).
Proof. by move=> L F fuel V l0 l1 atol rtol tstep V' ts pr r0 r1 ra rr s0 H; exact: (flow_adapt pr r0 r1 ra rr s0 H). Qed.

(** Links in SU(n) stay there.  The flow of a field in another gauge takes the same
    steps, and its result is the result of the first one in that gauge. *)
Theorem C94_covariant : forall L F g fuel V W (l0 l1 atol rtol ts : C) V' ts',
  (0 < n)%N -> sizes L -> (forall a, a \is Num.real -> power a \is Num.real) ->
  matrix_exponential ex -> (forall A, special A -> reu A = A) -> covariant_force L F ->
  (forall x, on_lattice L x -> special (g x)) ->
  l0 \is Num.real -> l1 \is Num.real -> atol \is Num.real -> rtol \is Num.real -> 0 <= ts ->
  special_links L V -> in_gauge L g V W ->
  flow L F fuel V l0 l1 atol rtol ts = Some (V', ts') ->
  special_links L V' /\
  exists2 W', flow L F fuel W l0 l1 atol rtol ts = Some (W', ts') & in_gauge L g V' W'.
Proof.
move=> L F g fuel V W l0 l1 atol rtol ts V' ts' n0 HL pr HE HR HF Hg r0 r1 ra rr s0 HV I H.
exact: (flow_gauge n0 HL pr HE HR HF Hg r0 r1 ra rr s0 HV I H).
Qed.

(** The forces of the flow are such forces, but for the Zeuthen flow. *)
Theorem C94_force : forall L a stale K0 E, (0 < n)%N -> sizes L -> (1 < length L)%N -> modelled a -> a <> Zeuthen ->
  covariant_force L (fun V => get_gf_force CM LM SU PG QF L fbp flp a V stale K0 E).
Proof. by move=> L a stale K0 E n0 HL hL m z; exact: gf_covariant_force. Qed.
End Props.
Print Assumptions C94_steps.
Print Assumptions C94_covariant.
Print Assumptions C94_force.

(** On links that commute, and with a force that is a polynomial of the link, the
    step agrees with the solution of the flow equation up to the third power of
    the step size, and the method it is compared with up to the second. *)
Theorem C94_order : forall (F : numFieldType) (p : {poly F}) (y0 : F) d x V, V d x = y0%:P ->
  let '(V3, V2, _) := rk_step (abelian F) (abelian_linear F) (abelian_algebra F) (abelian_gauss F) (abelian_flow F)
    (force_of p) 'X V in
  solves_to 3 p y0 (V3 d x) /\ solves_to 2 p y0 (V2 d x).
Proof. by move=> F p y0 d x V H; exact: rk_order. Qed.
Print Assumptions C94_order.

(** For SU(2) on 2 x 2 sites, with all links but one equal to 1: all hypotheses are
    met, the force is not 0, and with some tolerance the function returns. *)
Example C94_example (C : numClosedFieldType) fourpi2 fbp flp stale K0 :
  let L := square2 in let V := @one_link (complex_matrices C 2) (root1 C) in
  let ex := @cayley C in let reu := fun A : 'M[C]_2 => A in
  let F := fun V => get_gf_force (complex_matrices C 2) (complex_linear C 2) (su_algebra C 2) (su_gauss ex)
    (su_flow (@ten C) fourpi2 reu) L fbp flp Luscher_Weisz V stale K0 K0 in
  [/\ forall a, a \is Num.real -> @ten C a \is Num.real, matrix_exponential ex, special_links L V /\ covariant_force L F,
    algebra_matrix 2 (F V 0%N origin) <> 0 &
    exists2 atol : C, 0 <= atol & exists V', do_gradient_flow_adapt (complex_matrices C 2) (complex_linear C 2)
      (su_algebra C 2) (su_gauss ex) (su_flow (@ten C) fourpi2 reu) L F 2 V 2%:R 6%:R atol 0 2%:R = Some (V', 2%:R)].
Proof.
move=> L V ex reu F.
have [HL HU _ _ N] := C92_force_example ex (@ten C) fourpi2 reu fbp flp stale K0.
split; [exact: ten_real|exact: cayley_exponential| |exact: N|exact: run].
split; last by apply: C94_force.
move=> d x hd hx; split; first exact: HU.
have D : \det (root1 C) = 1.
  by rewrite /root1 det_diag big_ord_recl big_ord1 !mxE /= mulrN -expr2 sqrCi opprK.
rewrite /V /one_link; case: (d =? 0)%nat; last exact: det1.
by destruct (list_eq_dec Z.eq_dec x origin); [exact: D|exact: det1].
Qed.

(** The equation y' = y, y(0) = 1: the step gives 1 + h + h^2/2 + h^3/6. *)
Example C94_order_example (F : numFieldType) :
  let '(V3, _, _) := rk_step (abelian F) (abelian_linear F) (abelian_algebra F) (abelian_gauss F) (abelian_flow F)
    (force_of 'X) 'X (fun _ _ => 1%:P) in
  [/\ (V3 0%N nil)`_0 = 1, (V3 0%N nil)`_1 = 1, (V3 0%N nil)`_2 = 1 / 2%:R & (V3 0%N nil)`_3 = 1 / 6%:R].
Proof.
pose r := rk_step (abelian F) (abelian_linear F) (abelian_algebra F) (abelian_gauss F) (abelian_flow F)
  (force_of 'X) 'X (fun _ _ => 1%:P).
have : let '(V3, V2, _) := r in solves_to 3 'X 1 (V3 0%N nil) /\ solves_to 2 'X 1 (V2 0%N nil).
  exact: (@C94_order F 'X 1 0%N nil (fun _ _ => 1%:P) erefl).
rewrite -/r; move: r => [[V3 V2] tk] [[e0 H] _].
have {}H (i : nat) : (i <= 2)%N -> (V3 0%N nil)`_i.+1 *+ i.+1 = (V3 0%N nil)`_i.
  by move=> hi; have := H 2%N erefl i hi; rewrite coef_deriv comp_polyX.
have e1 := H 0%N isT; have e2 := H 1%N isT; have e3 := H 2%N isT.
rewrite mulr1n e0 in e1; rewrite e1 -mulr_natr in e2; rewrite -mulr_natr in e3.
move: e0 e1 e2 e3; move: ((V3 0%N nil)`_0) ((V3 0%N nil)`_1) ((V3 0%N nil)`_2) ((V3 0%N nil)`_3) => a0 a1 a2 a3 e0 e1 e2 e3.
have d2 : a2 = 1 / 2%:R by apply: (canRL (mulfK _)) e2; rewrite pnatr_eq0.
have d3 : a3 = a2 / 3%:R by apply: (canRL (mulfK _)) e3; rewrite pnatr_eq0.
split=> //; rewrite d3 d2 -mulrA -invfM -natrM.
by [].
Qed.
