(** The steps of the integration of the flow. *)
Set Warnings "-notation-overridden,-ambiguous-paths".
From Coq Require Import ZArith List.
From mathcomp Require Import all_ssreflect all_algebra.
From Verif Require Import LinalgSpec AlgebraModel AlgebraSpec
  GaugeModel GaugeSpec GaugeMatrix GaugeProofs1 GaugeProofs2 MatrixSpec ForceModel ForceSpec
  ForceProofs1 ForceProofs3 GaussModel GaussSpec FlowModel FlowSpec FlowProofs1 FlowProofs4 FlowstepModel FlowstepSpec.
Set Implicit Arguments.
Unset Strict Implicit.
Unset Printing Implicit Defensive.
Import Order.TTheory GRing.Theory Num.Theory.
Local Open Scope ring_scope.

Section Steps.
Variables (C : numClosedFieldType) (n : nat) (L : list Z).
Variables (ex : (nat -> C) -> 'M[C]_n) (power : C -> C) (fourpi2 : C) (reu : 'M[C]_n -> 'M[C]_n).
Variable F : links C n -> moments C.
Hypothesis power_real : forall a, a \is Num.real -> power a \is Num.real.
Notation CM := (complex_matrices C n).
Notation LM := (complex_linear C n).
Notation SU := (su_algebra C n).
Notation PG := (su_gauss ex).
Notation QF := (su_flow power fourpi2 reu).
Notation rmin := (rmin CM SU QF).
Notation less := (less CM SU QF).
Notation is_zero := (is_zero CM SU QF).
Notation field_max := (field_max CM SU QF L).
Notation all_max := (all_max CM SU QF L).

Lemma at_leastE (a b : C) : at_least CM SU QF a b = (b <= a). Proof. by []. Qed.
Lemma lessE (a b : C) : a \is Num.real -> b \is Num.real -> less a b = (a < b).
Proof. by move=> ra rb; rewrite /less at_leastE real_ltNge. Qed.
Lemma is_zeroE (a : C) : is_zero a = (a == 0).
Proof. by rewrite /is_zero !at_leastE eq_le andbC. Qed.
Lemma rmin_real (a b : C) : a \is Num.real -> b \is Num.real -> rmin a b \is Num.real.
Proof. by move=> ra rb; rewrite /rmin; case: ifP. Qed.
Lemma rmin_gt0 (a b : C) : 0 < a -> 0 < b -> 0 < rmin a b.
Proof. by move=> a0 b0; rewrite /rmin; case: ifP. Qed.
Lemma rmin_ge0 (a b : C) : 0 <= a -> 0 <= b -> 0 <= rmin a b.
Proof. by move=> a0 b0; rewrite /rmin; case: ifP. Qed.
Lemma rmin_le (a b : C) : a \is Num.real -> b \is Num.real -> rmin a b <= b.
Proof. by move=> ra rb; rewrite /rmin at_leastE; case: ifP. Qed.

Lemma field_max_real (f : site -> C) : (forall x, In x (sites L) -> f x \is Num.real) -> field_max f \is Num.real.
Proof.
rewrite /field_max; case: (sites L) => [|x0 l] R; first exact: real0.
have : f x0 \is Num.real by apply: R; left.
have {R} : forall x, In x l -> f x \is Num.real by move=> x hx; apply: R; right.
elim: l (f x0) => [//|y l IH] m R rm; apply: IH => [x hx|]; first by apply: R; right.
by case: ifP => _ //; apply: R; left.
Qed.
Lemma field_max_ge (f : site -> C) : (forall x, In x (sites L) -> f x \is Num.real) ->
  forall x, In x (sites L) -> f x <= field_max f.
Proof.
rewrite /field_max; case: (sites L) => [//|x0 l] R x hx.
have r0 : f x0 \is Num.real by apply: R; left.
have {R} Rl : forall x, In x l -> f x \is Num.real by move=> y hy; apply: R; right.
have G m : m \is Num.real -> m <= fold_left (fun m x => if at_least CM SU QF m (f x) then m else f x) l m /\
    forall x, In x l -> f x <= fold_left (fun m x => if at_least CM SU QF m (f x) then m else f x) l m.
  elim: l Rl m {x hx} => [|y l IH] Rl m rm; first by split.
  have ry : f y \is Num.real by apply: Rl; left.
  have [||A B] := IH _ (if at_least CM SU QF m (f y) then m else f y).
  - by move=> z hz; apply: Rl; right.
  - by case: ifP.
  have [h1 h2] : m <= (if at_least CM SU QF m (f y) then m else f y) /\ f y <= (if at_least CM SU QF m (f y) then m else f y).
    rewrite at_leastE; case: ifP => h; first by split.
    by split=> //; have := real_leVge rm ry; rewrite h orbF.
  split; first exact: le_trans h1 A.
  by move=> z [<-|hz]; [exact: le_trans h2 A|exact: B].
have [A B] := G _ r0; case: hx => [<-|hx]; [exact: A|exact: B].
Qed.

Lemma all_max_facts (f : nat -> site -> C) :
  (forall d x, (d < length L)%N -> on_lattice L x -> f d x \is Num.real) ->
  0 <= all_max f /\ forall d x, (d < length L)%N -> on_lattice L x -> f d x <= all_max f.
Proof.
move=> R; rewrite /all_max.
have RM d : In d (directions L) -> field_max (f d) \is Num.real.
  by move=> /directions_lt hd; apply: field_max_real => x /sites_In hx; apply: R.
have G (l : list nat) m : (forall d, In d l -> In d (directions L)) -> 0 <= m ->
   let r := fold_left (fun m d => let tm := field_max (f d) in if less m tm then tm else m) l m in
   m <= r /\ forall d, In d l -> field_max (f d) <= r.
  elim: l m => [|d l IH] m Hl m0 /=; first by split.
  have rm := ger0_real m0; have rd : field_max (f d) \is Num.real by apply: RM; apply: Hl; left.
  have [h1 h2] : m <= (if less m (field_max (f d)) then field_max (f d) else m) /\
      field_max (f d) <= (if less m (field_max (f d)) then field_max (f d) else m).
    rewrite lessE //; case: ifP => h; first by split=> //; exact: ltW.
    by split=> //; rewrite real_leNgt ?h.
  have [||A B] := IH (if less m (field_max (f d)) then field_max (f d) else m).
  - by move=> d' h; apply: Hl; right.
  - exact: le_trans m0 h1.
  split; first exact: le_trans h1 A.
  by move=> d' [<-|h]; [exact: le_trans h2 A|exact: B].
have [A B] := G (directions L) 0 (fun d h => h) (lexx 0).
split=> // d x hd hx; apply: le_trans (B d _); last by apply/in_seq; split; [exact: Nat.le_0_l|apply/ssrnat.ltP].
by apply: field_max_ge => [y /sites_In hy|]; [exact: R|exact/sites_In].
Qed.

(** ** Step sizes *)

Notation initial_step := (initial_step CM LM SU QF L F).
Notation next_step := (next_step CM LM SU QF).

Lemma frac_gt0 p q : 0 < frac CM SU QF (Zpos p) (Zpos q).
Proof. by rewrite frcE frc_pos divr_gt0 // ltr0n; apply/ssrnat.ltP; exact: Pos2Nat.is_pos. Qed.

Lemma norm2_ge0 (a : nat -> C) : 0 <= anorm2 CM SU a.
Proof. by apply: sumr_ge0 => k _; rewrite exprn_ge0. Qed.

Lemma size_of_ge0 (a : nat -> C) : 0 <= size_of n a.
Proof. by rewrite sqrtC_ge0; exact: norm2_ge0. Qed.

Lemma initial_pos (V : links C n) (t ub tstep : C) : 0 < ub -> 0 <= tstep ->
  0 < initial_step V t ub tstep <= ub.
Proof.
move=> u0 t0; have ru := gtr0_real u0; have rt := ger0_real t0.
have s0 : 0 <= rmin tstep ub by exact: rmin_ge0 t0 (ltW u0).
have sle : rmin tstep ub <= ub by exact: rmin_le.
have rs := ger0_real s0.
rewrite /FlowstepModel.initial_step; set m := rsqrt _ _ _ _; set s := rmin tstep ub in s0 sle rs *.
have m0 : 0 <= m.
  rewrite /m sqrtC_ge0 mulr_ge0 //; first exact: ltW (frac_gt0 _ _).
  have R : forall d x, (d < length L)%N -> on_lattice L x -> anorm2 CM SU (F V d x) \is Num.real.
    by move=> d x _ _; apply: ger0_real; exact: norm2_ge0.
  by have [] := all_max_facts R.
have rm := ger0_real m0; have f0 := frac_gt0 xH (xO (xI (xO xH))); have rf := gtr0_real f0.
have B (a : C) : 0 < a -> 0 < rmin a ub <= ub.
  by move=> a0; rewrite rmin_gt0 //= rmin_le // gtr0_real.
have D : frac CM SU QF (Zpos xH) (Zpos (xO (xI (xO xH)))) < m -> 0 < rdiv CM SU QF (frac CM SU QF (Zpos xH) (Zpos (xO (xI (xO xH))))) m.
  by move=> h; apply: divr_gt0 => //; exact: lt_trans f0 h.
rewrite !is_zeroE; case z: (s == 0).
  rewrite orbT; case l: (less _ m); last by apply: B; exact: frac_gt0.
  by apply: B; apply: D; move: l; rewrite lessE.
have sp : 0 < s by rewrite lt0r z.
rewrite orbF; case: ifP => _; last by rewrite sp.
case l: (less _ _); last by rewrite sp.
have h : frac CM SU QF (Zpos xH) (Zpos (xO (xI (xO xH)))) < s * m by move: l; rewrite lessE // realM.
apply: B; apply: divr_gt0 => //.
by rewrite lt0r m0 andbT; apply/eqP => e; move: (lt_trans f0 h); rewrite e mulr0 ltxx.
Qed.

Lemma next_pos (e h ub : C) : e \is Num.real -> 0 < h -> 0 < ub -> 0 < next_step e h ub <= ub.
Proof.
move=> re h0 u0; rewrite /FlowstepModel.next_step; set q := if _ then _ else _.
have q0 : 0 < q.
  rewrite /q; case: ifP => [_|n1]; first exact: frac_gt0.
  case: ifP => [_|_]; first exact: frac_gt0.
  have f0 := frac_gt0 xH (xO (xI (xO xH))); apply: (lt_trans f0).
  rewrite real_ltNge ?(gtr0_real f0) //; last exact: power_real.
  by rewrite -at_leastE n1.
have p0 : 0 < rmul CM LM (rmul CM LM (frac CM SU QF (Zpos (xI (xO (xO xH)))) (Zpos (xO (xI (xO xH))))) q) h.
  by apply: mulr_gt0 => //; apply: mulr_gt0 => //; exact: frac_gt0.
by rewrite rmin_gt0 //= rmin_le ?gtr0_real.
Qed.

(** ** The methods *)

Notation rk_step := (rk_step CM LM SU PG QF F).

Lemma c_quarter : frac CM SU QF (Zpos (xI (xO (xO (xI xH))))) (Zpos (xO (xO (xI (xO (xO (xI xH))))))) = 1 / 4%:R.
Proof. rewrite frcE frc_pos; apply/eqP; rewrite eqr_div ?pnatr_eq0 // mul1r -natrM; by apply/eqP. Qed.
Lemma c_three : frac CM SU QF (Zpos (xI (xI (xO (xI (xO (xO xH))))))) (Zpos (xO (xO (xI (xO (xO (xI xH))))))) = 3%:R / 4%:R.
Proof. rewrite frcE frc_pos; apply/eqP; rewrite eqr_div ?pnatr_eq0 // -!natrM; by apply/eqP. Qed.
Lemma c_five : frac CM SU QF (Zneg (xI (xO (xI (xI (xI (xI xH))))))) (Zpos (xO (xO (xI (xO (xO (xI xH))))))) = - (5%:R / 4%:R).
Proof. rewrite frcE frc_neg; congr (- _); apply/eqP; rewrite eqr_div ?pnatr_eq0 // -!natrM; by apply/eqP. Qed.
Lemma c_seventeen : frac CM SU QF (Zneg (xI (xO (xO (xO xH))))) (Zpos (xO (xO (xI (xO (xO xH)))))) = - (17%:R / 36%:R).
Proof. by rewrite frcE frc_neg. Qed.
Lemma c_eight : frac CM SU QF (Zpos (xO (xO (xO xH)))) (Zpos (xI (xO (xO xH)))) = 8%:R / 9%:R.
Proof. by rewrite frcE frc_pos. Qed.
Lemma c_two : frac CM SU QF (Zpos (xO xH)) (Zpos xH) = 2%:R.
Proof. by rewrite frcE frc2. Qed.

Lemma rk_stepE (h : C) (V : links C n) :
  rk_step h V = (runge_kutta3 ex F h V, runge_kutta2 ex F h V, exponent_low ex F h V).
Proof.
rewrite /FlowstepModel.rk_step /rotate c_quarter c_three c_five c_seventeen c_eight c_two.
by [].
Qed.

Lemma relative_errorE (tatol rtol h : C) (V : links C n) :
  tatol \is Num.real -> rtol \is Num.real -> 0 < h ->
  let e := relative_error CM LM SU PG QF L tatol rtol h (runge_kutta3 ex F h V) (runge_kutta2 ex F h V) (exponent_low ex F h V) in
  e \is Num.real /\ (e < 1 -> accurate L ex F tatol rtol h V).
Proof.
move=> ra rr h0 e; rewrite /e /relative_error; set f := (fun d : nat => fun x : site => _).
have R d x : (d < length L)%N -> on_lattice L x -> f d x \is Num.real.
  move=> _ _; have s0 a := ger0_real (size_of_ge0 a).
  apply: realM; first exact: s0.
  rewrite realV; apply: realD => //; apply: realM; last by rewrite realV gtr0_real.
  by apply: realM => //; exact: s0.
have [A B] := all_max_facts R; split; first exact: ger0_real.
by move=> l d x hd hx; apply: le_lt_trans (B d x hd hx) l.
Qed.

(** ** The loop *)

Notation flow_loop := (flow_loop CM LM SU PG QF L F).

Lemma loop_flows fuel (tmax ub tatol rtol : C) V (t step tstep : C) (stop : bool) V' ts :
  tmax \is Num.real -> 0 < ub -> tatol \is Num.real -> rtol \is Num.real ->
  t \is Num.real -> t <= tmax -> 0 < step <= ub -> (stop -> t = tmax) -> 
  flow_loop fuel tmax ub tatol rtol V V t step tstep stop = Some (V', ts) ->
  exists hs, [/\ \sum_(h <- hs) h = tmax - t, flows L ex F reu tatol rtol ub hs V V' &
    (t = tmax /\ ts = tstep \/ t < tmax /\ 0 < ts <= ub)].
Proof.
move=> rM u0 ra rr; elim: fuel V t step tstep stop => [|fuel IH] V t step tstep stop rt le /andP[s0 sub] st.
  rewrite /= lessE //; case: ifP => // E [<- <-]; exists nil.
  have e : t = tmax.
    move: E le; case: stop st => [-> //|_]; rewrite andbT => E le.
    by apply/eqP; rewrite eq_le le /= real_leNgt ?E.
  by rewrite big_nil e subrr; split=> //; left.
cbn [FlowstepModel.flow_loop]; rewrite lessE //; case: ifP => [/andP[l ns]|E]; last first.
  move=> [<- <-]; exists nil.
  have e : t = tmax.
    move: E le; case: stop st => [-> //|_]; rewrite andbT => E le.
    by apply/eqP; rewrite eq_le le /= real_leNgt ?E.
  by rewrite big_nil e subrr; split=> //; left.
have {ns}-> : stop = false by case: stop ns {st}.
set hs := if at_least _ _ _ _ _ then _ else _.
have [h [b [Eh h0 hub ht hb]]] : exists h b, [/\ hs = (h, b), 0 < h, h <= ub, t + h <= tmax & b -> t + h = tmax].
  rewrite /hs at_leastE; case: ifP => c.
    exists (tmax - t), true; split=> //; first by rewrite subr_gt0.
    - by apply: le_trans sub; rewrite ler_subl_addl.
    - by rewrite addrC subrK.
    by rewrite addrC subrK.
  exists step, false; split=> //; rewrite real_leNgt ?realD ?(gtr0_real s0) //.
  by apply/negP => c'; move: c; rewrite (ltW c').
rewrite Eh rk_stepE.
set e := relative_error _ _ _ _ _ _ _ _ _ _ _ _.
have [re acc] : e \is Num.real /\ (e < 1 -> accurate L ex F tatol rtol h V) by exact: relative_errorE.
have one : frac CM SU QF (Zpos xH) (Zpos xH) = 1 by rewrite frcE frc1.
have N := next_pos re h0 u0.
rewrite one lessE ?real1 //; case: ifP => c H.
  have rt' : t + h \is Num.real by rewrite realD // gtr0_real.
  have [hs' [S FL T]] := IH _ _ _ _ _ rt' ht N hb H.
  exists (h :: hs'); split.
  - have e' : tmax - (t + h) = tmax - t - h by rewrite opprD addrA.
    by rewrite big_cons S e' addrC subrK.
  - by split=> //; exact: acc.
  right; split=> //; case: T => [[_ ->]|[_ //]]; by rewrite s0.
have [hs' [S FL T]] := IH V t _ _ false rt le N (fun e => False_ind _ (notF e)) H.
exists hs'; split=> //; right; split=> //.
by case: T => [[e' _]|[_ //]]; move: l; rewrite e' ltxx.
Qed.

(** At least two steps. *)
Lemma two_steps (tatol rtol T : C) hs V V' : 0 < T -> \sum_(h <- hs) h = T -> flows L ex F reu tatol rtol (T / 2%:R) hs V V' ->
  (1 < size hs)%N.
Proof.
move=> T0; case: hs => [|h [|h' hs]] //=.
  by rewrite big_nil => e; rewrite -e ltxx in T0.
rewrite big_cons big_nil addr0 => -> [_ le _ _].
by move: le; rewrite ler_pdivl_mulr ?ltr0n // mulr_natr mulr2n ger_addl real_leNgt ?real0 ?gtr0_real // T0.
Qed.

Lemma flow_adapt fuel V (l0 l1 atol rtol tstep : C) V' ts :
  l0 \is Num.real -> l1 \is Num.real -> atol \is Num.real -> rtol \is Num.real -> 0 <= tstep ->
  do_gradient_flow_adapt CM LM SU PG QF L F fuel V l0 l1 atol rtol tstep = Some (V', ts) ->
  let t0 := l0 ^+ 2 / 8%:R in let t1 := l1 ^+ 2 / 8%:R in
  (t1 <= t0 -> V' = V /\ ts = tstep) /\
  (t0 < t1 -> exists hs, [/\ (1 < size hs)%N, \sum_(h <- hs) h = t1 - t0,
     flows L ex F reu (atol * sqrtC 2%:R) rtol ((t1 - t0) / 2%:R) hs V V' & 0 < ts <= (t1 - t0) / 2%:R]).
Proof.
move=> r0 r1 ra rr s0; rewrite /do_gradient_flow_adapt.
have -> : frac CM SU QF (Zpos (xO (xO (xO xH)))) (Zpos xH) = 8%:R by rewrite frcE frc_pos divr1.
rewrite c_two.
have -> : rdiv CM SU QF (rmul CM LM l0 l0) 8%:R = l0 ^+ 2 / 8%:R by [].
have -> : rdiv CM SU QF (rmul CM LM l1 l1) 8%:R = l1 ^+ 2 / 8%:R by [].
have : l0 ^+ 2 / 8%:R \is Num.real by rewrite realM ?realV ?realn // rpredX.
have : l1 ^+ 2 / 8%:R \is Num.real by rewrite realM ?realV ?realn // rpredX.
move: (l0 ^+ 2 / 8%:R) (l1 ^+ 2 / 8%:R) => t0 t1 rt1 rt0 H.
split=> [le|lt].
  move: H; case: fuel => [|fuel]; cbn [FlowstepModel.flow_loop]; rewrite lessE // real_ltNge // le /=; by case.
have u0 : 0 < (t1 - t0) / 2%:R by rewrite divr_gt0 ?subr_gt0 ?ltr0n.
have rs : atol * sqrtC 2%:R \is Num.real by apply: realM => //; apply: ger0_real; rewrite sqrtC_ge0 ler0n.
have I := initial_pos V t0 u0 s0.
have [hs [S FL T]] := loop_flows rt1 u0 rs rr rt0 (ltW lt) I (fun e => False_ind _ (notF e)) H.
exists hs; split=> //; first by apply: (two_steps (T := t1 - t0)) FL => //; rewrite subr_gt0.
by case: T => [[e _]|[_ //]]; move: lt; rewrite e ltxx.
Qed.
End Steps.
