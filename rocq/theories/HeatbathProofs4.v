(** The model's loops and the rejection methods of HeatbathSpec. *)
Set Warnings "-notation-overridden,-ambiguous-paths".
From mathcomp Require Import all_ssreflect all_algebra.
From Verif Require Import FieldTac LinalgModel LinalgSpec LinalgProofs1 MatrixModel MatrixSpec MatrixProofs1 MatrixProofs2 EigenSpec EigenProofs1 EigenProofs2
  SuModel SuSpec SuProofs2 AlgebraModel AlgebraSpec AlgebraProofs3 AlgebraProofs4 Su2Model Su2Spec Su2Proofs1 Su2Proofs2 Su2Proofs3
  OverrelaxProofs1 OverrelaxProofs2 OverrelaxProofs3 OverrelaxProofs4 OverrelaxProofs5 HeatbathModel HeatbathSpec HeatbathProofs1 HeatbathProofs2 HeatbathProofs3.
Set Implicit Arguments.
Unset Strict Implicit.
Unset Printing Implicit Defensive.
Import Order.TTheory GRing.Theory Num.Theory.
Local Open Scope ring_scope.

Section Sampling.
Variables (F : numFieldType) (f : F -> F) (u : F) (cj : {rmorphism F -> F}) (re im root log exp sin cos : F -> F) (I pi2 : F).
Hypothesis P : complex_parts cj re im root I.
Hypothesis R : real_functions log exp sin cos.
Hypothesis pi_real : pi2 \is Num.real.
Variable rnd : nat -> F.
Hypothesis D : random_numbers rnd.
Notation FS := (field_scalars f u).
Notation M q := (mxr 2 2 (su2_matrix FS I q)).
Notation Tr := (trial FS log cos pi2 rnd).
Notation Kp := (kp_loop FS log cos pi2 rnd).
Notation Cr := (creutz_loop FS log rnd).
Notation Choose := (choose FS log exp cos pi2 rnd).
Notation Direction := (direction FS root sin cos pi2 rnd).
Notation kpd := (kp_d log cos pi2 rnd).
Notation kpa := (kp_accepted log cos pi2 rnd).
Notation ca := (creutz_a log exp rnd).
Notation cacc := (creutz_accepted log exp rnd).

Lemma trialE al k : (Tr al (4 * k) : F * F) = (kpd al k, rnd (4 * k + 3)).
Proof. by rewrite /trial /kp_d expr2 mulrA. Qed.

Lemma kpaE al k : (rnd (4 * k + 3) * rnd (4 * k + 3) < 1 - half FS * kpd al k) = kpa al k.
Proof. by rewrite /kp_accepted -expr2 halfE [2%:R^-1 * _]mulrC. Qed.

Lemma kp_first al j : kpa al j -> forall t k (d : F), (k < j)%N -> (j <= k + t)%N ->
  (forall i, (k < i < j)%N -> ~~ kpa al i) ->
  Kp al t k (4 * k.+1) d = (kpd al j, j, (4 * j.+1)%N, true).
Proof.
move=> aj; elim=> [|t IH] k d kj jt no; first by move: jt; rewrite addn0 leqNgt kj.
rewrite kp_loopS trialE kpaE; have e4 : (4 * k.+1 + 4 = 4 * k.+2)%N by rewrite [in RHS]mulnS addnC.
case: (altP (k.+1 =P j)) => [e|ne]; first by rewrite e aj -e e4.
have kj1 : (k.+1 < j)%N by rewrite ltn_neqAle ne kj.
rewrite (negbTE (no k.+1 _)) ?ltnSn // e4; apply: IH => //; first by rewrite addSnnS.
by move=> i /andP [h1 h2]; apply: no; rewrite h2 (ltnW h1).
Qed.

Lemma creutz_first al xl xd j : xl = exp (- (2%:R * al)) -> xd = 1 - xl -> cacc al j -> forall t k (a : F), (k <= j)%N -> (j < k + t)%N ->
  (forall i, (k <= i < j)%N -> ~~ cacc al i) ->
  Cr al xl xd t k (4 + 2 * k) a = (ca al j, j.+1, (4 + 2 * j.+1)%N).
Proof.
move=> -> -> aj; elim=> [|t IH] k a kj jt no; first by move: jt; rewrite addn0 ltnNge kj.
have e2 : (4 + 2 * k + 2 = 4 + 2 * k.+1)%N by rewrite mulnS -addnA [(_ + 2)%N]addnC.
have e5 : (4 + 2 * k + 1 = 5 + 2 * k)%N by rewrite addn1.
rewrite creutz_loopS e2 e5; cbv zeta.
have -> : 1 + log (exp (- (2%:R * al)) + (1 - exp (- (2%:R * al))) * rnd (4 + 2 * k)%N) / al = ca al k by [].
rewrite -!expr2 -/(cacc al k); case: (altP (k =P j)) => [e|ne]; first by rewrite e aj.
have kj1 : (k < j)%N by rewrite ltn_neqAle ne kj.
rewrite (negbTE (no k _)) ?leqnn //; apply: IH => //; first by rewrite addSnnS.
by move=> i /andP [h1 h2]; apply: no; rewrite h2 (ltnW h1).
Qed.

Lemma kpd_ge0 al k : 0 < al -> 0 <= kpd al k.
Proof. by move=> a0; have [] := trial_ge0 f u R pi_real D (4 * k) a0; rewrite trialE. Qed.

Lemma choose_spec al a0 tries used : 0 < al -> chosen log exp cos pi2 rnd al a0 tries used ->
  (Choose al 0 : F * nat * nat * bool) = (1 - a0, tries, used, true).
Proof.
move=> al0; rewrite /chosen chooseE (trialE al 0) muln0 !add0n.
have rd : 1 - half FS * kpd al 0 \is Num.real.
  by rewrite halfE; apply: realB; rewrite ?real1 //; apply: realM; rewrite ?realV ?realn // ger0_real // kpd_ge0.
rewrite real_leNgt // ?realM ?(rnd_real D) //.
have := kpaE al 0; rewrite muln0 add0n => ->; rewrite if_neg.
case: (kpa al 0) => [[-> -> ->]|]; first by rewrite opprB addrCA subrr addr0.
have -> : 0 + 1 + 1 = 2%:R :> F by rewrite add0r.
case: (2%:R < al) => [[acc no /andP [t0 t1] -> ->]|[acc no /andP [t0 t1] -> ->]].
  rewrite opprB addrCA subrr addr0.
  exact: (@kp_first al tries acc 40 0 (kpd al 0) t0 t1 no).
have e : exp (- 2%:R * al) = exp (- (2%:R * al)) by rewrite mulNr.
cbv zeta; have := creutz_first e erefl acc (t := 40) (k := 0%N) u (leq0n _).
rewrite prednK // add0n => /(_ t1) H; rewrite H // => i /andP [_]; exact: no.
Qed.

Lemma direction_spec a0 p : -1 <= a0 <= 1 -> let ua := uniform_a cos root pi2 rnd a0 p in
  let ub := uniform_b sin root pi2 rnd a0 p in let uc := uniform_c root rnd a0 p in
  Direction (1 - a0) p = mkSu2 FS ua ub uc a0.
Proof.
move=> /andP [l1 l2] ua ub uc; have C : complex_numbers cj re root by case: P.
have e0 : 1 - (1 - a0) = a0 by rewrite opprB addrCA subrr addr0.
have ra : a0 \is Num.real by rewrite -[a0](subrK 1) realD ?real1 // ler0_real // subr_le0.
have s0 : 0 <= 1 - a0 ^+ 2.
  rewrite subr_ge0 -[X in _ <= X](expr1n _ 2) -real_normK //.
  by rewrite ler_pexpn2r ?nnegrE ?ler01 ?normr_ge0 // real_ler_norml // l1.
pose r2 := 1 - a0 ^+ 2.
have s2 : root r2 ^+ 2 = r2 by exact: (rootK C).
have rx : 2%:R * rnd p - 1 \is Num.real by rewrite realB ?real1 // realM ?realn // (rnd_real D).
have q0 : 0 <= r2 - uc ^+ 2.
  rewrite /uc /uniform_c exprMn s2 subr_ge0 -[X in _ <= X]mul1r; apply: ler_wpmul2r => //.
  case/andP: (D p) => h0 h1; rewrite -real_normK // -[X in _ <= X](expr1n _ 2).
  rewrite ler_pexpn2r ?nnegrE ?ler01 ?normr_ge0 // real_ler_norml //; apply/andP; split.
    by rewrite -subr_ge0 opprK subrK mulr_ge0 ?ler0n.
  by rewrite ler_subl_addr -[1 + 1]/(2%:R) -[X in _ <= X]mulr1 ler_wpmul2l ?ler0n // ltW.
pose r2' : F := `|1 - (1 - (1 - a0)) * (1 - (1 - a0))|; pose ac : F := (of_nat FS 2 * rnd p - 1) * root r2'.
pose rho : F := root `|r2' - ac * ac|.
rewrite -[direction _ _ _ _ _ _ _ _]/(mkSu2 FS (rho * cos (pi2 * rnd (p + 1)%N)) (rho * sin (pi2 * rnd (p + 1)%N)) ac (1 - (1 - a0))).
have e2 : r2' = r2 by rewrite /r2' e0 -expr2 ger0_norm.
have ec : ac = uc by rewrite /ac e2 (of_natE f u).
have er : rho = root (r2 - uc ^+ 2) by rewrite /rho e2 ec -expr2 ger0_norm.
by rewrite er ec e0 addn1.
Qed.

Lemma chosen_range al a0 tries used : 0 < al -> chosen log exp cos pi2 rnd al a0 tries used -> -1 <= a0 <= 1.
Proof.
move=> al0 /(choose_spec al0) E; have := chooseP f u R pi_real D 0 al0; rewrite E => -[h0 _ h2 _].
rewrite subr_ge0 in h0; rewrite h0 andbT; move: h2.
by rewrite ler_subl_addr -ler_subl_addl -[2%:R]/(1 + 1) opprD addrA subrr sub0r.
Qed.

Lemma root_4 (x : F) : 0 <= x -> root (x * 4%:R) = 2%:R * root x.
Proof.
move=> x0; have C : complex_numbers cj re root by case: P.
have x4 : 0 <= x * 4%:R by rewrite mulr_ge0 ?ler0n.
apply/eqP; rewrite -(@eqr_expn2 _ 2) ?(root_ge0 C) ?mulr_ge0 ?ler0n ?(root_ge0 C) //.
by rewrite exprMn !(rootK C) // -natrX mulrC.
Qed.

Lemma heat2_spec beta (U S : nat -> nat -> F) (s : su2 FS) a0 tries used : 0 < beta -> special_unitary cj (mxr 2 2 U) -> real_su2 s ->
  su2_det FS s != 0 -> mxr 2 2 S = M s ->
  let z := root (su2_det FS s) in
  chosen log exp cos pi2 rnd (beta * z) a0 tries used ->
  let h := mkSu2 FS (uniform_a cos root pi2 rnd a0 used) (uniform_b sin root pi2 rnd a0 used) (uniform_c root rnd a0 used) a0 in
  exists2 W, heatbath FS cj re im root log exp sin cos I pi2 rnd 2 beta U S = Some (W, Some (1 / tries%:R)) &
    mxr 2 2 (W : nat -> nat -> F) = z^-1 *: (M h *m M s).
Proof.
move=> b0 sU rs ds eS z ch h; have [z0 _ _ _] := su2_scaled P rs ds.
have al0 : 0 < beta * z by apply: mulr_gt0.
have := heat2 P R pi_real D b0 sU rs ds eS; cbv zeta; rewrite root_4 ?det_ge0 // mulrA divfK ?pnatr_eq0 // (choose_spec al0 ch).
move=> [W e1 e2]; exists W => //; rewrite e2 (direction_spec used (chosen_range al0 ch)).
by rewrite invfM mulrA divff ?pnatr_eq0 // mul1r.
Qed.

End Sampling.
