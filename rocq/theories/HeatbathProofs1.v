(** The choice of an element of SU(2). *)
Set Warnings "-notation-overridden,-ambiguous-paths".
From mathcomp Require Import all_ssreflect all_algebra.
From Verif Require Import FieldTac LinalgModel LinalgSpec MatrixModel MatrixSpec MatrixProofs1 MatrixProofs2 EigenSpec EigenProofs1
  SuModel SuSpec AlgebraModel AlgebraSpec AlgebraProofs3 AlgebraProofs4 Su2Model Su2Spec Su2Proofs1 Su2Proofs2 Su2Proofs3
  OverrelaxProofs1 OverrelaxProofs2 HeatbathModel HeatbathSpec.
Set Implicit Arguments.
Unset Strict Implicit.
Unset Printing Implicit Defensive.
Import Order.TTheory GRing.Theory Num.Theory.
Local Open Scope ring_scope.

Section Choice.
Variables (F : numFieldType) (f : F -> F) (u : F) (cj : {rmorphism F -> F}) (re im root log exp sin cos : F -> F) (I pi2 : F).
Hypothesis P : complex_parts cj re im root I.
Hypothesis R : real_functions log exp sin cos.
Hypothesis pi_real : pi2 \is Num.real.
Variable rnd : nat -> F.
Hypothesis D : random_numbers rnd.
Notation FS := (field_scalars f u).

Lemma rnd_real k : rnd k \is Num.real.
Proof. by case/andP: (D k) => h _; apply: ger0_real. Qed.

Lemma log_rnd k : log (1 - rnd k) <= 0.
Proof.
case: R => L _ _ _; case/andP: (D k) => h0 h1; apply: L; first by rewrite subr_gt0.
by rewrite ler_subl_addr ler_addl.
Qed.

Lemma halfE : half FS = 2%:R^-1 :> F.
Proof. by rewrite /half (of_natE f u) /= div1r. Qed.

Lemma sq_ge0 (x : F) : x \is Num.real -> 0 <= x * x.
Proof. by move=> rx; rewrite -expr2 real_exprn_even_ge0. Qed.

Lemma trial_ge0 al p : 0 < al -> 0 <= (trial FS log cos pi2 rnd al p).1 /\ (trial FS log cos pi2 rnd al p).2 \is Num.real.
Proof.
move=> a0; split; last exact: rnd_real.
rewrite /=; apply: mulr_ge0; last by rewrite invr_ge0 ltW.
rewrite opprD; apply: addr_ge0; rewrite oppr_ge0; first exact: log_rnd.
rewrite -mulrA; apply: mulr_le0_ge0; first exact: log_rnd.
apply: sq_ge0; case: R => _ _ _ T; case: (T (pi2 * rnd (p + 2)%N)) => //; apply: realM => //; exact: rnd_real.
Qed.

Lemma accepted (d x : F) : 0 <= d -> x \is Num.real -> x * x < 1 - half FS * d -> d <= 2%:R.
Proof.
move=> d0 rx h; have := le_lt_trans (sq_ge0 rx) h.
rewrite subr_gt0 halfE mulrC ltr_pdivr_mulr ?ltr0n // mul1r; exact: ltW.
Qed.

Notation Tr := (trial FS log cos pi2 rnd).
Notation Kp := (kp_loop FS log cos pi2 rnd).
Notation Cr := (creutz_loop FS log rnd).

Lemma kp_loopS (al : F) t k p (d : F) : Kp al t.+1 k p d =
  let '(d1, x) := (Tr al p : F * F) in
  if x * x < 1 - half FS * d1 then (d1, k.+1, (p + 4)%N, true) else Kp al t k.+1 (p + 4)%N d1.
Proof. by []. Qed.

Lemma kp_loopP al turns k p d : 0 < al -> 0 <= d ->
  let '(d', k', p', test) := kp_loop FS log cos pi2 rnd al turns k p d in
  [/\ 0 <= d', (k <= k' <= k + turns)%N, (0 < turns)%N -> (k < k')%N & if test then is_true (d' <= 2%:R) else k' = (k + turns)%N].
Proof.
move=> a0; elim: turns k p d => [|t IH] k p d d0.
  by rewrite /= addn0 leqnn.
rewrite kp_loopS; have [t0 tr] := trial_ge0 p a0; move: t0 tr; case: (Tr al p : F * F) => [d1 x] t0 tr.
rewrite /= in t0 tr.
case: (boolP (x * x < _)) => h.
  split=> //; first by rewrite leqnSn addnS ltnS leq_addr.
  by apply: accepted h.
move: (IH k.+1 (p + 4)%N d1 t0); case: kp_loop => [[[d' k'] p'] test] [g0 g1 _ g3].
case/andP: g1 => g1 g2; split=> //.
  by rewrite (ltnW g1) addnS -addSn.
by case: test g3 => // ->; rewrite addSnnS.
Qed.

Lemma creutz_loopS (al xl xd : F) t k p (a0 : F) : Cr al xl xd t.+1 k p a0 =
  let a : F := 1 + log (xl + xd * rnd p) / al in
  if rnd (p + 1)%N * rnd (p + 1)%N < 1 - a * a then (a, k.+1, (p + 2)%N) else Cr al xl xd t k.+1 (p + 2)%N a.
Proof. by []. Qed.

Lemma creutz_loopP al xl xd turns k p (a0 : F) : 0 < al -> xl = exp (- (2%:R * al)) -> xd = 1 - xl ->
  let '(a, k', p') := creutz_loop FS log rnd al xl xd turns k p a0 in
  [/\ (0 < turns)%N -> -1 <= a <= 1, (k <= k' <= k + turns)%N & (0 < turns)%N -> (k < k')%N].
Proof.
move=> al0 exl exd; elim: turns k p a0 => [|t IH] k p a0; first by rewrite /= addn0 leqnn.
rewrite creutz_loopS; cbv zeta; set a : F := 1 + log _ / al; have ha : -1 <= a <= 1.
  case: R => L1 L2 L3 _; have y0 : - (2%:R * al) <= 0 by rewrite oppr_le0 mulr_ge0 ?ler0n // ltW.
  case: (L3 _ y0); rewrite -exl => x0 x1 lx; case/andP: (D p) => r0 r1.
  have d0 : 0 <= xd by rewrite exd subr_ge0.
  have g1 : xl <= xl + xd * rnd p by rewrite ler_addl mulr_ge0.
  have g2 : xl + xd * rnd p <= 1.
    rewrite -ler_subr_addl -exd -[X in _ <= X]mulr1; apply: ler_pmul => //; exact: ltW.
  have g3 := lt_le_trans x0 g1.
  rewrite /a; apply/andP; split; last first.
    by rewrite ger_addl; apply: mulr_le0_ge0; rewrite ?invr_ge0 ?L1 // ltW.
  rewrite -ler_subl_addl -opprD -[1 + 1]/(2%:R) ler_pdivl_mulr // mulNr -lx; exact: L2.
case: (boolP (_ * _ < _)) => h; first by split=> //; rewrite leqnSn addnS ltnS leq_addr.
move: (IH k.+1 (p + 2)%N a); case Ec: (creutz_loop _ _ _ _ _ _ _ _ _) => [[a' k'] p'] [g0 g1 _].
case/andP: g1 => g1 g2; split=> //; last by rewrite (ltnW g1) addnS -addSn.
move=> _; case: t {IH} Ec g0 {g2} => [|t] Ec g0; last exact: g0.
by case: Ec => <-.
Qed.

Lemma chooseE (al : F) p : choose FS log exp cos pi2 rnd al p =
  let '(d, x) := (Tr al p : F * F) in
  if 1 - half FS * d <= x * x then
    if 0 + 1 + 1 < al then Kp al 40 0 (p + 4)%N d
    else let xl := exp (- (0 + 1 + 1) * al) in
      let '(a0, k, p') := Cr al xl (1 - xl) 40 0 (p + 4)%N u in (1 - a0, k, p', true)
  else (d, 1%N, (p + 4)%N, true).
Proof. by rewrite /choose -[LinalgModel.mul FS (LinalgModel.opp FS (of_nat FS 2)) al]/(- (0 + 1 + 1) * al). Qed.

Lemma chooseP al p : 0 < al ->
  let '(d, k, p', ok) := choose FS log exp cos pi2 rnd al p in
  [/\ 0 <= d, (0 < k <= 40)%N, if ok then is_true (d <= 2%:R) else k = 40%N & al <= 2%:R -> ok].
Proof.
move=> a0; rewrite chooseE; have [t0 tr] := trial_ge0 p a0; move: t0 tr; case: (Tr al p : F * F) => [d x] t0 tr.
rewrite /= in t0 tr.
have rr : x * x \is Num.real by apply: realM.
have rd : 1 - half FS * d \is Num.real.
  by rewrite halfE; apply: realB; rewrite ?real1 //; apply: realM; rewrite ?realV ?realn // ger0_real.
case: (boolP (_ <= _)) => h; last first.
  split=> //; apply: (accepted t0 tr); by rewrite real_ltNge.
have [h2|h2] := boolP (_ < al).
  move: (@kp_loopP al 40 0 (p + 4)%N d a0 t0); case: kp_loop => [[[d' k'] p'] test] [g0 g1 g2 g3].
  split=> //; first by rewrite g2 //; case/andP: g1.
  by move=> a2; have := lt_le_trans h2 a2; rewrite add0r ltxx.
have e1 : exp (- (0 + 1 + 1) * al) = exp (- (2%:R * al)) by rewrite add0r mulNr.
move: (@creutz_loopP al _ _ 40 0 (p + 4)%N u a0 e1 erefl).
cbv zeta; case: (Cr _ _ _ _ _ _ _) => [[a k'] p'] [g0 g1 g2]; case/andP: (g0 isT) => l1 l2.
split; [by rewrite subr_ge0|by rewrite g2 //; case/andP: g1| |by []].
by rewrite ler_subl_addr -ler_subl_addl -[2%:R]/(1 + 1) opprD addrA subrr sub0r.
Qed.

Lemma directionP d p : d \is Num.real -> let a := direction FS root sin cos pi2 rnd d p in
  [/\ real_su2 a, qd FS a = 1 - d & su2_det FS a = (1 - d) ^+ 2 + `|1 - (1 - d) ^+ 2|].
Proof.
move=> rd; case: (P) => C _ _.
pose r2 : F := `|1 - (1 - d) * (1 - d)|; pose ac : F := (of_nat FS 2 * rnd p - 1) * root r2.
pose rho : F := root `|r2 - ac * ac|.
rewrite -[direction _ _ _ _ _ _ _ _]/(mkSu2 FS (rho * cos (pi2 * rnd (p + 1)%N)) (rho * sin (pi2 * rnd (p + 1)%N)) ac (1 - d)).
cbv zeta.
have r20 : 0 <= r2 by rewrite /r2 /= normr_ge0.
have s2 : root r2 ^+ 2 = r2 by exact: (rootK C).
have rr : root r2 \is Num.real by apply: ger0_real; exact: (root_ge0 C).
have rx : 2%:R * rnd p - 1 \is Num.real by rewrite realB ?real1 // realM ?realn // rnd_real.
have eac : ac = (2%:R * rnd p - 1) * root r2 by rewrite /ac (of_natE f u).
have rac : ac \is Num.real by rewrite eac; apply: realM.
have q0 : 0 <= r2 - ac * ac.
  rewrite eac mulrACA -[root r2 * root r2]expr2 s2 subr_ge0 -[X in _ <= X]mul1r; apply: ler_wpmul2r => //.
  case/andP: (D p) => h0 h1; rewrite -expr2 -real_normK // -[X in _ <= X](expr1n _ 2).
  rewrite ler_pexpn2r ?nnegrE ?ler01 ?normr_ge0 // real_ler_norml //; apply/andP; split.
    by rewrite -subr_ge0 opprK subrK mulr_ge0 ?ler0n.
  by rewrite ler_subl_addr -[1 + 1]/(2%:R) -[X in _ <= X]mulr1 ler_wpmul2l ?ler0n // ltW.
have r0 : rho ^+ 2 = r2 - ac * ac by rewrite /rho /= ger0_norm // (rootK C).
have rrho : rho \is Num.real by apply: ger0_real; rewrite /rho /= ger0_norm //; exact: (root_ge0 C).
have rt : pi2 * rnd (p + 1)%N \is Num.real by rewrite realM // rnd_real.
case: R => _ _ _ /(_ _ rt) [rc rs cs].
split=> //; first by split=> /=; [exact: realM|exact: realM|exact: rac|exact: (realB (real1 F))].
rewrite /su2_det /=.
have -> : rho * cos (pi2 * rnd (p + 1)%N) * (rho * cos (pi2 * rnd (p + 1)%N)) + rho * sin (pi2 * rnd (p + 1)%N) * (rho * sin (pi2 * rnd (p + 1)%N))
  = rho ^+ 2 * (cos (pi2 * rnd (p + 1)%N) ^+ 2 + sin (pi2 * rnd (p + 1)%N) ^+ 2).
  by rewrite mulrACA [X in _ + X]mulrACA -!expr2 mulrDr.
by rewrite cs mulr1 r0 subrK /r2 /= !expr2 addrC.
Qed.

Lemma direction_unit d p : 0 <= d -> d <= 2%:R -> su2_det FS (direction FS root sin cos pi2 rnd d p) = 1.
Proof.
move=> d0 d2; have [_ _ ->] := directionP p (ger0_real d0).
rewrite ger0_norm; first by rewrite addrC subrK.
rewrite subr_ge0 -[X in _ <= X](expr1n _ 2).
have r1 : 1 - d \is Num.real by rewrite realB ?real1 // ger0_real.
rewrite -real_normK // ler_pexpn2r ?nnegrE ?ler01 ?normr_ge0 // real_ler_norml //; apply/andP; split.
  by rewrite -subr_ge0 opprK addrAC -[1 + 1]/(2%:R) subr_ge0.
by rewrite ler_subl_addr ler_addl.
Qed.

End Choice.
