(** The order of the two methods. *)
Set Warnings "-notation-overridden,-ambiguous-paths".
From Coq Require Import ZArith List Ring.
From mathcomp Require Import all_ssreflect all_algebra.
From Verif Require Import LinalgSpec FieldTac AlgebraModel AlgebraSpec
  GaugeModel GaugeSpec GaugeMatrix ForceModel GaussModel FlowModel FlowSpec FlowProofs4 FlowstepModel FlowstepSpec.
Set Implicit Arguments.
Unset Strict Implicit.
Unset Printing Implicit Defensive.
Import Order.TTheory GRing.Theory Num.Theory.
Local Open Scope ring_scope.

Section PureRing.
Variables (R : Type) (r0 r1 : R) (radd rmul rsub : R -> R -> R) (ropp : R -> R).
Variable RT : ring_theory r0 r1 radd rmul rsub ropp eq.
Add Ring RTring : RT.
Local Notation "a + b" := (radd a b).
Local Notation "a * b" := (rmul a b).
Local Notation "a - b" := (rsub a b).
Lemma pure_third h f0 f1 f2 q1 q2 s u v w :
  let z1 := h * s * f0 in
  let k2 := f0 + f1 * z1 + f2 * (z1 * z1) + z1 * z1 * z1 * q1 in
  let e2 := h * u * k2 + h * v * f0 in
  let z2 := e2 + z1 in
  let k3 := f0 + f1 * z2 + f2 * (z2 * z2) + z2 * z2 * z2 * q2 in
  let c := s + u + v in
  let d := u * s in
  let B := s * s * f0 * f0 * f2 + h * s * s * s * f0 * f0 * f0 * q1 in
  let t := d * f0 * f1 + h * u * B in
  let D := f1 * u * B + f2 * (c * f0 * t + c * f0 * t + h * (t * t))
     + q2 * ((c * f0 + h * t) * (c * f0 + h * t) * (c * f0 + h * t)) in
  (h * w * k3 - e2) + z2 = h * ((s + w) * f0) + h * h * (w * c * f0 * f1)
    + h * h * h * (w * d * f0 * f1 * f1 + w * (c * c) * f0 * f0 * f2) + h * h * h * h * (w * D).
Proof. move=> z1 k2 e2 z2 k3 c d B t D; rewrite /D /t /B /d /c /k3 /z2 /e2 /k2 /z1; ring. Qed.

Lemma pure_second h f0 f1 f2 q1 s u v :
  let z1 := h * s * f0 in
  let k2 := f0 + f1 * z1 + f2 * (z1 * z1) + z1 * z1 * z1 * q1 in
  let B := s * s * f0 * f0 * f2 + h * s * s * s * f0 * f0 * f0 * q1 in
  (h * u * k2 + h * v * f0) + z1 = h * ((s + u + v) * f0) + h * h * (u * s * f0 * f1) + h * h * h * (u * B).
Proof. move=> z1 k2 B; rewrite /B /k2 /z1; ring. Qed.

(** A polynomial at y0 + z for z = h a + h^2 b + h^3 g. *)
Lemma pure_compose h f0 f1 f2 q a b g :
  let z := h * a + h * h * b + h * h * h * g in
  let y := a + h * b + h * h * g in
  let t := b + h * g in
  f0 + f1 * z + f2 * (z * z) + z * z * z * q =
  f0 + h * (f1 * a) + h * h * (f1 * b + f2 * a * a)
   + h * h * h * (f1 * g + f2 * (a * t + a * t + h * (t * t)) + y * y * y * q).
Proof. move=> z y t; rewrite /t /y /z; ring. Qed.
End PureRing.

Section Order.
Variable F : numFieldType.
Notation R := {poly F}.
Implicit Types (p y z g : R).

Lemma taylor3 p (y0 : F) z : exists q,
  p \Po (y0%:P + z) = p.[y0]%:P + p^`N(1).[y0]%:P * z + p^`N(2).[y0]%:P * (z * z) + z * z * z * q.
Proof.
set P := map_poly polyC p.
have sz : (size P <= (size P).+3)%N by do 3 apply: leqW.
rewrite /comp_poly -/P (nderiv_taylor_wide (mulrC _ _) sz) !big_ord_recl /=.
have E i : (P^`N(i)).[y0%:P] = (p^`N(i)).[y0]%:P by rewrite nderivn_map horner_map.
rewrite nderivn0 -/P /P horner_map -/P.
have -> : bump 0 0 = 1%N by []. have -> : bump 0 1 = 2%N by [].
rewrite !E expr0 expr1 mulr1 expr2.
exists (\sum_(i < size P) (P^`N(i.+3)).[y0%:P] * z ^+ i).
rewrite !addrA; congr (_ + _); rewrite mulr_sumr; apply: eq_bigr => i _.
have -> : bump 0 (bump 0 (bump 0 i)) = i.+3 by [].
by rewrite [RHS]mulrCA !exprS !mulrA.
Qed.

Lemma coef3 (a b c : F) g : let y := a%:P + 'X * b%:P + 'X * 'X * c%:P + 'X * 'X * 'X * g in
  [/\ y`_0 = a, y`_1 = b, y`_2 = c & y`_3 = g`_0].
Proof.
move=> y; rewrite /y -!mulrA.
by split; rewrite !coefD !coefXM !coefC /= ?coefXM ?coefC /= ?coefXM ?coefC /= ?addr0 ?add0r.
Qed.

Lemma agree_upto (k : nat) (a b : R) : (k < 3)%N -> a`_0 = b`_0 -> ((0 < k)%N -> a`_1 = b`_1) -> ((1 < k)%N -> a`_2 = b`_2) -> agree_to k a b.
Proof. by case: k => [|[|[|k]]] // _ h0 h1 h2 [|[|[|i]]] // _; auto. Qed.

(** The first coefficients decide. *)
Lemma solves_coefs p (y0 b : F) g (k : nat) (f := fun i : nat => p^`N(i).[y0]) :
  (k < 3)%N -> ((0 < k)%N -> b = f 0%N * f 1%N / 2%:R) ->
  ((1 < k)%N -> g`_0 = f 0%N * f 1%N * f 1%N / 6%:R + f 0%N * f 0%N * f 2%N / 3%:R) ->
  solves_to k.+1 p y0 (y0%:P + 'X * (f 0%N)%:P + 'X * 'X * b%:P + 'X * 'X * 'X * g).
Proof.
move=> k3 Hb Hg; have [c0 c1 c2 c3] := coef3 y0 (f 0%N) b g.
split=> // _ [<-].
have [q E] := taylor3 p y0 ('X * (f 0%N)%:P + 'X * 'X * b%:P + 'X * 'X * 'X * g).
move: E; rewrite !addrA => E.
have K := pure_compose (mc_ring [comRingType of R]) 'X (f 0%N)%:P (f 1%N)%:P (f 2%N)%:P q (f 0%N)%:P b%:P g.
have nd : p.[y0] = f 0%N by rewrite /f nderivn0.
move: E; rewrite nd -/(f 1%N) -/(f 2%N) => E.
move: (eq_trans E K); rewrite -!polyCM -polyCD => {}E.
move: E; set q' := (X in _ = _ + 'X * 'X * 'X * X) => E.
have [d0 d1 d2 _] := coef3 (f 0%N) (f 1%N * f 0%N) (f 1%N * b + f 2%N * f 0%N * f 0%N) q'.
apply: agree_upto => // [|k0|k1]; rewrite E coef_deriv.
- by rewrite c1 d0.
- by rewrite c2 d1 (Hb k0) -mulr_natr divfK ?pnatr_eq0 // mulrC.
rewrite c3 d2 (Hg k1) (Hb (ltnW k1)) -mulr_natr mulrDl.
have e6 (a : F) : a / 6%:R * 3%:R = a / 2%:R.
  rewrite -mulrA; congr (_ * _); apply/eqP; rewrite mulrC -[X in _ == X]mul1r eqr_div ?pnatr_eq0 // -natrM mul1r; by apply/eqP.
rewrite e6 divfK ?pnatr_eq0 //; congr (_ + _).
  by rewrite mulrA mulrA; congr (_ / _); rewrite mulrC !mulrA.
by rewrite mulrC mulrA.
Qed.

(** The numbers. *)
Notation AF := (frac (abelian F) (abelian_algebra F) (abelian_flow F)).
Lemma nat_frac (a b c d : nat) : (b != 0)%N -> (d != 0)%N -> (a * d == c * b)%N -> (a%:R / b%:R : F) = c%:R / d%:R.
Proof. by move=> b0 d0 /eqP e; apply/eqP; rewrite eqr_div ?pnatr_eq0 // -!natrM e. Qed.
Lemma n_quarter : AF (Zpos (xI (xO (xO (xI xH))))) (Zpos (xO (xO (xI (xO (xO (xI xH))))))) = (9%:R / 36%:R)%:P.
Proof. congr (_%:P); exact: (nat_frac (a := 25) (b := 100)). Qed.
Lemma n_three : AF (Zpos (xI (xI (xO (xI (xO (xO xH))))))) (Zpos (xO (xO (xI (xO (xO (xI xH))))))) = (27%:R / 36%:R)%:P.
Proof. congr (_%:P); exact: (nat_frac (a := 75) (b := 100)). Qed.
Lemma n_five : AF (Zneg (xI (xO (xI (xI (xI (xI xH))))))) (Zpos (xO (xO (xI (xO (xO (xI xH))))))) = (- (45%:R / 36%:R))%:P.
Proof.
congr (_%:P); rewrite rmorphN mulNr; congr (- _); exact: (@nat_frac 125 100).
Qed.
Lemma n_seventeen : AF (Zneg (xI (xO (xO (xO xH))))) (Zpos (xO (xO (xI (xO (xO xH)))))) = (- (17%:R / 36%:R))%:P.
Proof. by congr (_%:P); rewrite rmorphN mulNr. Qed.
Lemma n_eight : AF (Zpos (xO (xO (xO xH)))) (Zpos (xI (xO (xO xH)))) = (32%:R / 36%:R)%:P.
Proof. congr (_%:P); exact: (nat_frac (a := 8) (b := 9)). Qed.
Lemma n_two : AF (Zpos (xO xH)) (Zpos xH) = (72%:R / 36%:R)%:P.
Proof. congr (_%:P); exact: (nat_frac (a := 2) (b := 1)). Qed.

Notation step := (rk_step (abelian F) (abelian_linear F) (abelian_algebra F) (abelian_gauss F) (abelian_flow F)).

(** The three-stage method is of third order, the other one of second order. *)
Lemma rk_order p (y0 : F) d x (V : nat -> site -> R) : V d x = y0%:P ->
  let '(V3, V2, _) := step (force_of p) 'X V in
  solves_to 3 p y0 (V3 d x) /\ solves_to 2 p y0 (V2 d x).
Proof.
move=> HV; rewrite /rk_step /rotate n_quarter n_three n_five n_seventeen n_eight n_two.
pose f := fun i : nat => p^`N(i).[y0].
have f0 : p.[y0] = f 0%N by rewrite /f nderivn0.
pose u : F := 32%:R / 36%:R; pose v : F := - (17%:R / 36%:R); pose w : F := 27%:R / 36%:R; pose s : F := 9%:R / 36%:R.
pose u' : F := 72%:R / 36%:R; pose v' : F := - (45%:R / 36%:R).
pose Z1 := 'X * s%:P * (p \Po V d x).
pose E2 := 'X * u%:P * (p \Po (Z1 + V d x)) + 'X * v%:P * (p \Po V d x).
pose E2' := 'X * u'%:P * (p \Po (Z1 + V d x)) + 'X * v'%:P * (p \Po V d x).
change (solves_to 3 p y0 ('X * w%:P * (p \Po (E2 + (Z1 + V d x))) - E2 + (E2 + (Z1 + V d x))) /\
  solves_to 2 p y0 (E2' + (Z1 + V d x))).
rewrite /E2 /E2' /Z1 {E2 E2' Z1} HV comp_polyCr f0.
set z1 := 'X * s%:P * (f 0%N)%:P.
rewrite [z1 + _]addrC.
have [q1 ->] := taylor3 p y0 z1.
rewrite f0 -/(f 1%N) -/(f 2%N).
set k2 := _ + z1 * z1 * z1 * q1.
set e2 := 'X * u%:P * k2 + _.
rewrite [e2 + (_ + _)]addrCA.
have [q2 ->] := taylor3 p y0 (e2 + z1).
rewrite f0 -/(f 1%N) -/(f 2%N).
have sw : s + w = 1 by rewrite /s /w -mulrDl -natrD divff ?pnatr_eq0.
have c : s + u + v = 2%:R / 3%:R.
  rewrite /s /u /v -mulrDl -mulrBl -natrD -natrB //; exact: (@nat_frac _ _ 2 3).
have wc : w * (s + u + v) = 1 / 2%:R.
  rewrite c /w mulf_div -!natrM; exact: (@nat_frac _ _ 1 2).
have wd : w * (u * s) = 1 / 6%:R.
  rewrite /w /u /s !mulf_div -!natrM; exact: (@nat_frac (27 * (32 * 9)) (36 * (36 * 36)) 1 6).
have wcc : w * ((s + u + v) * (s + u + v)) = 1 / 3%:R.
  rewrite c /w !mulf_div -!natrM; exact: (@nat_frac _ _ 1 3).
have c' : s + u' + v' = 1 by rewrite /s /u' /v' -mulrDl -mulrBl -natrD -natrB // divff ?pnatr_eq0.
have us' : u' * s = 1 / 2%:R by rewrite /u' /s mulf_div -!natrM; exact: (@nat_frac _ _ 1 2).
split.
  have K := pure_third (mc_ring [comRingType of R]) 'X (f 0%N)%:P (f 1%N)%:P (f 2%N)%:P q1 q2 s%:P u%:P v%:P w%:P.
  rewrite [_ + (y0%:P + _)]addrCA; rewrite [X in y0%:P + X](K : _ = _) {K}.
  rewrite -!polyCD -!polyCM sw mul1r.
  set D := (X in 'X * 'X * 'X * 'X * X).
  set b := w * (s + u + v) * f 0%N * f 1%N; rewrite -polyCD.
  set c3 := w * (u * s) * f 0%N * f 1%N * f 1%N + _.
  have e : y0%:P + ('X * (f 0%N)%:P + 'X * 'X * b%:P + 'X * 'X * 'X * c3%:P + 'X * 'X * 'X * 'X * D)
     = y0%:P + 'X * (f 0%N)%:P + 'X * 'X * b%:P + 'X * 'X * 'X * (c3%:P + 'X * D).
    by rewrite mulrDr !addrA !mulrA.
  rewrite e; apply: solves_coefs => // _.
    by rewrite /b wc div1r [RHS]mulrC !mulrA.
  rewrite coefD coefC coefXM /= addr0 /c3 wd wcc !div1r.
  by congr (_ + _); rewrite [RHS]mulrC !mulrA.
have K := pure_second (mc_ring [comRingType of R]) 'X (f 0%N)%:P (f 1%N)%:P (f 2%N)%:P q1 s%:P u'%:P v'%:P.
rewrite [_ + (y0%:P + _)]addrCA; rewrite [X in y0%:P + X](K : _ = _) {K}.
rewrite -!polyCD -!polyCM c' us' !mul1r; set B := (X in 'X * 'X * 'X * X); rewrite !addrA.
by apply: solves_coefs => // _; rewrite [RHS]mulrC !mulrA.
Qed.
End Order.
