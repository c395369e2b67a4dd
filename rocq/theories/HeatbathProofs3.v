(** The return value; SU(2); and where the link is not unitary. *)
Set Warnings "-notation-overridden,-ambiguous-paths".
From mathcomp Require Import all_ssreflect all_algebra.
From Verif Require Import FieldTac LinalgModel LinalgSpec LinalgProofs1 MatrixModel MatrixSpec MatrixProofs1 MatrixProofs2 EigenSpec EigenProofs1 EigenProofs2
  SuModel SuSpec SuProofs2 AlgebraModel AlgebraSpec AlgebraProofs3 AlgebraProofs4 Su2Model Su2Spec Su2Proofs1 Su2Proofs2 Su2Proofs3
  OverrelaxProofs1 OverrelaxProofs2 OverrelaxProofs3 OverrelaxProofs4 OverrelaxProofs5 HeatbathModel HeatbathSpec HeatbathProofs1 HeatbathProofs2.
Set Implicit Arguments.
Unset Strict Implicit.
Unset Printing Implicit Defensive.
Import Order.TTheory GRing.Theory Num.Theory.
Local Open Scope ring_scope.

Section Result.
Variables (F : numFieldType) (f : F -> F) (u : F) (cj : {rmorphism F -> F}) (re im root log exp sin cos : F -> F) (I pi2 : F).
Hypothesis P : complex_parts cj re im root I.
Hypothesis R : real_functions log exp sin cos.
Hypothesis pi_real : pi2 \is Num.real.
Notation FS := (field_scalars f u).
Notation FT := (mc_field F).
Notation M q := (mxr 2 2 (su2_matrix FS I q)).
Notation project := (project_from_matrix FS re im).
Notation mtx := (nat -> nat -> F).

Section Draws.
Variable rnd : nat -> F.
Hypothesis D : random_numbers rnd.
Notation Hit := (heat_hit FS re im root log exp sin cos I pi2 rnd).
Notation Sweep := (heat_sweep FS cj re im root log exp sin cos I pi2 rnd).
Notation Heatbath := (heatbath FS cj re im root log exp sin cos I pi2 rnd).
Notation Choose := (choose FS log exp cos pi2 rnd).
Notation Direction := (direction FS root sin cos pi2 rnd).

Lemma heatbathP n beta (U S W : mtx) rate : (0 < n)%N -> 0 < beta -> special_unitary cj (mxr n n U) ->
  Heatbath n beta U S = Some (W, rate) ->
  match rate with
  | Some r => [/\ (1 < n)%N, 40%:R^-1 <= (r : F) <= 1 &
      'C(n, 2)%:R / ('C(n, 2) + 39)%:R < r -> special_unitary cj (mxr n n W)]
  | None => n = 1%N /\ W = U
  end.
Proof.
move=> n0 b0 sU; have := heat_sweepP (f := f) (u := u) P R pi_real D S n0 b0 sU; rewrite /heatbath.
case E: (Sweep n beta U S) => [st|//] [[/andP [i0 i1] i2 i3] eh] [<- <-].
case: (PeanoNat.Nat.eqb_spec (h_try FS st) 0) => [t0|/eqP t0].
  move: i0; rewrite t0 leqn0 eh => /eqP c0.
  have n1 : n = 1%N.
    by move: c0 n0; case: (n) => [|[|k]] //; rewrite binS bin1 addnS.
  by split=> //; move: E; rewrite n1 => -[<-].
have {}t0 : (0 < h_try FS st)%N by rewrite lt0n.
have h0 : (0 < h_hit FS st)%N by move: (leq_trans t0 i1); rewrite muln_gt0.
have t1 : 0 < (h_try FS st)%:R :> F by rewrite ltr0n.
rewrite /= !(of_natE f u); split.
- by move: h0; rewrite eh; case: (n) => [|[|k]].
- rewrite ler_pdivl_mulr // ler_pdivr_mulr // mul1r ler_nat i0 andbT ler_pdivr_mull ?ltr0n //.
  by rewrite -natrM ler_nat.
have h39 : 0 < (h_hit FS st + 39)%:R :> F by rewrite ltr0n addn_gt0 h0.
rewrite -eh ltr_pdivr_mulr // mulrAC ltr_pdivl_mulr // -!natrM ltr_nat ltn_pmul2l //.
move=> lt; apply: i2; case: (boolP (h_ok FS st)) => // /i3; by rewrite leqNgt lt.
Qed.

Lemma sweep2 beta (U S : mtx) : Sweep 2 beta U S =
  Hit 2 (beta / (0 + 1 + 1)) 0 1 (mkHeat FS U (op_mul FS 2 2 2 U (dagger FS cj 2 2 S)) 0 0 0 true).
Proof. by []. Qed.

Lemma heat2 beta (U S : mtx) (s : su2 FS) : 0 < beta -> special_unitary cj (mxr 2 2 U) -> real_su2 s ->
  su2_det FS s != 0 -> mxr 2 2 S = M s ->
  let z := root (su2_det FS s * 4%:R) in
  let '(d, k, p, ok) := Choose (beta / 2%:R * z) 0 in
  exists2 W, Heatbath 2 beta U S = Some (W, Some (1 / k%:R)) &
    mxr 2 2 (W : mtx) = (2%:R / z) *: (M (Direction d p) *m M s).
Proof.
move=> b0 sU rs ds eS z; have [v [rv dv eU]] := special_quat f u P sU.
rewrite /heatbath sweep2; set A : mtx := op_mul FS 2 2 2 U _.
have eA : mxr 2 2 A = M (su2_mul FS v (su2_dagger FS s)).
  by rewrite /A op_mul_mx // daggerE eU eS (M_mul P) (M_dagger P).
have ea : project A 0 1 = su2_mul FS v (su2_dagger FS s).
  by apply: (project_M P) => //; apply: real_mul => //; exact: real_dagger.
have eh : heat_staple FS re im A 0 1 = su2_scale FS (su2_mul FS s (su2_dagger FS v)) (2%:R : F).
  by rewrite heat_stapleE ea dagger_mul dagger_dagger.
have dh : su2_det FS (heat_staple FS re im A 0 1) = su2_det FS s * 4%:R.
  by rewrite eh det_scale (su2_det_mul FT) det_dagger dv mulr1 -natrM.
have dA : su2_det FS (project A 0 1) != 0 by rewrite ea (su2_det_mul FT) det_dagger dv mul1r.
have b2 : 0 < beta / 2%:R by rewrite divr_gt0 // ltr0n.
have := strengthP (f := f) (u := u) P b2 dA; have := heat_hitE f u re im root log exp sin cos I pi2 rnd 2 (beta / (0 + 1 + 1)) 0 1 U A 0 0 0 true.
have e2 : beta / (0 + 1 + 1) = beta / 2%:R by rewrite add0r.
rewrite !e2; have -> : strength f u re im root (beta / 2%:R) A 0 1 = beta / 2%:R * z by rewrite /strength dh.
cbv zeta => -> a0; rewrite gt_eqF //.
have := chooseP f u R pi_real D 0 a0; case: (Choose _ _) => [[[d k] p] ok] [_ /andP [k0 _] _ _].
have -> : unit_staple f u re im root A 0 1 = su2_scale FS (su2_scale FS (su2_mul FS s (su2_dagger FS v)) (2%:R : F)) (z^-1).
  by rewrite /unit_staple -eh /z -dh.
move: (Direction d p) => a; set X := su2_mul FS a _.
have eX : M X *m M v = (2%:R / z) *: (M a *m M s).
  rewrite /X !(M_mul P) !(M_scale P) (M_mul P) scalerA -scalemxAr -scalemxAl -!mulmxA -(M_mul P) (su2_dagger_mul FT) dv.
  by rewrite (@M_scalar _ f u _ _ _ _ _ P) mulmx1 mulrC.
move: X eX => X eX; eexists.
  rewrite [h_try _ _]/= [h_hit _ _]/= add0n.
  have -> : Nat.eqb k 0 = false by case: (k) k0.
  by rewrite !(of_natE f u).
by rewrite /= leftE // embed01 eU.
Qed.


Lemma heat2_special beta (U S : mtx) (s : su2 FS) : 0 < beta -> special_unitary cj (mxr 2 2 U) -> real_su2 s ->
  su2_det FS s != 0 -> mxr 2 2 S = M s ->
  let z := root (su2_det FS s * 4%:R) in
  let '(d, k, p, ok) := Choose (beta / 2%:R * z) 0 in
  (ok -> special_unitary cj ((2%:R / z) *: (M (Direction d p) *m M s))) /\ (beta ^+ 2 * su2_det FS s <= 4%:R -> ok).
Proof.
move=> b0 sU rs ds eS z; have C : complex_numbers cj re root by case: P.
have d0 : 0 < su2_det FS s by rewrite lt_def ds det_ge0.
have d4 : 0 < su2_det FS s * 4%:R by rewrite mulr_gt0 // ltr0n.
have zz : z * z = su2_det FS s * 4%:R by rewrite -expr2 (rootK C) // ltW.
have z0 : 0 < z by rewrite lt_def (root_ge0 C) ?(ltW d4) // andbT; apply: contraTneq d4 => e; rewrite -zz e mul0r ltxx.
have a0 : 0 < beta / 2%:R * z by rewrite !mulr_gt0 // invr_gt0 ltr0n.
have := chooseP f u R pi_real D 0 a0; case: (Choose _ _) => [[[d k] p] ok] [g0 _ g2 g3]; split=> [o|b4].
  rewrite o in g2; have [ra _ _] := directionP f u P R pi_real D p (ger0_real g0).
  have da := direction_unit f u P R pi_real D p g0 g2.
  rewrite scalemxAr -(M_scale P); apply: specialM; first exact/(su2_special P ra).
  have rz : 2%:R / z \is Num.real by rewrite ger0_real // divr_ge0 ?ler0n // ltW.
  apply/(su2_special P (real_scale rs rz)); rewrite det_scale mulrACA -invfM zz -natrM.
  by rewrite mulrA divff // mulf_neq0 // pnatr_eq0.
apply: g3; apply: real_le; rewrite ?ger0_real ?ler0n // ?(ltW a0) //.
rewrite mulrACA zz [beta / _ * _]mulrACA -invfM -!natrM -expr2 mulrACA mulVf ?pnatr_eq0 // mulr1.
exact: b4.
Qed.

Lemma kp_fail (al d x : F) t k p (d0 : F) :
  (forall q, (trial FS log cos pi2 rnd al q : F * F) = (d, x)) -> (x * x < 1 - half FS * d) = false ->
  kp_loop FS log cos pi2 rnd al t.+1 k p d0 = (d, (k + t.+1)%N, (p + 4 * t.+1)%N, false).
Proof.
move=> T h; elim: t k p d0 => [|t IH] k p d0; rewrite kp_loopS T h; first by rewrite /= addn1 muln1.
by rewrite IH addSnnS -addnA -mulnS.
Qed.
End Draws.

Lemma heat_refuted : exists (rnd : nat -> F) (beta : F) (U S W : mtx),
  [/\ random_numbers rnd, 0 < beta, special_unitary cj (mxr 2 2 U), special_unitary cj (mxr 2 2 S) &
    heatbath FS cj re im root log exp sin cos I pi2 rnd 2 beta U S = Some (W, Some (40%:R^-1)) /\ ~ unitary cj (mxr 2 2 W)].
Proof.
have C : complex_numbers cj re root by case: P.
have n9 : - 9%:R <= 0 :> F by rewrite oppr_le0 ler0n.
case: (R) => _ _ /(_ _ n9) [e0 e1 le] T.
pose x : F := 1 - exp (- 9%:R); pose rnd (k : nat) := x.
have D : random_numbers rnd by move=> k; rewrite /rnd /x subr_ge0 e1 ltr_subl_addr ltr_addl.
pose one (i j : nat) : F := (i == j)%:R.
have eo : mxr 2 2 one = 1%:M by apply/matrixP => i j; rewrite !mxE.
have so : special_unitary cj (mxr 2 2 one) by rewrite eo; apply: special1.
have b0 : 0 < 3%:R :> F by rewrite ltr0n.
have eS : mxr 2 2 one = M (su2_scalar FS (1 : F)) by rewrite (@M_scalar _ f u _ _ _ _ _ P).
have d1 : su2_det FS (su2_scalar FS (1 : F)) = 1 by rewrite /su2_det /= !mul0r !add0r mul1r.
have d10 : su2_det FS (su2_scalar FS (1 : F)) != 0 by rewrite d1 oner_eq0.
have := heat2 D b0 so (real_scalar f u (real1 F)) d10 eS; rewrite d1 mul1r.
have r4 : root 4%:R = 2%:R.
  have := rootK C (ler0n F 4); rewrite (_ : 4%:R = 2%:R ^+ 2); last by rewrite -natrX.
  by move/eqP; rewrite eqr_expn2 // ?ler0n ?(root_ge0 C) ?exprn_ge0 ?ler0n // => /eqP.
cbv zeta; rewrite r4 divfK ?pnatr_eq0 //.
have rx : pi2 * x \is Num.real by apply: realM => //; rewrite -[x]/(rnd 0%N) rnd_real.
pose c := cos (pi2 * x); have rc : c \is Num.real by have [] := T _ rx.
pose d : F := - (- 9%:R + - 9%:R * c * c) / 3%:R.
have tE q : (trial FS log cos pi2 rnd 3%:R q : F * F) = (d, x).
  have ex : 1 - x = exp (- 9%:R) by rewrite /x opprB addrCA subrr addr0.
  by rewrite /trial /= /rnd ex le.
have d3 : 3%:R <= d.
  rewrite /d ler_pdivl_mulr // -natrM opprD opprK !mulNr opprK ler_addl -mulrA mulr_ge0 ?ler0n //; exact: sq_ge0.
have xr : x \is Num.real by rewrite -[x]/(rnd 0%N) rnd_real.
have dn : 1 - half FS * d < 0.
  rewrite subr_lt0 halfE mulrC ltr_pdivl_mulr ?ltr0n // mul1r; apply: lt_le_trans d3; by rewrite ltr_nat.
have h1 : (x * x < 1 - half FS * d) = false.
  by apply/negbTE; rewrite -real_leNgt ?(ler0_real (ltW dn)) ?realM //; apply: le_trans (sq_ge0 xr); exact: ltW.
have -> : choose FS log exp cos pi2 rnd 3%:R 0 = (d, 40%N, 164%N, false).
  rewrite chooseE tE; have -> : 1 - half FS * d <= x * x by apply: le_trans (sq_ge0 xr); exact: ltW.
  have -> : 0 + 1 + 1 < 3%:R :> F by rewrite add0r -[1 + 1]/(2%:R) ltr_nat.
  exact: (kp_fail 39 0 4 d tE h1).
move=> [W eW]; rewrite divff ?pnatr_eq0 // scale1r (@M_scalar _ f u _ _ _ _ _ P) mulmx1 => mW.
exists rnd, 3%:R, one, one, W; split=> //; split; first by rewrite eW div1r.
rewrite mW => /(unitary_det C); rewrite (M_det P).
have dr : d \is Num.real by apply: ger0_real; apply: le_trans d3; exact: ler0n.
have [_ _ ->] := directionP f u P R pi_real D 164 dr.
have g : 2%:R ^+ 2 <= (1 - d) ^+ 2.
  rewrite -[(1 - d) ^+ 2]sqrrN opprB ler_pexpn2r ?nnegrE ?ler0n //; first by rewrite ler_subr_addr -(natrD _ 2 1).
  by rewrite subr_ge0; apply: le_trans d3; rewrite ler1n.
have g0 : 0 <= (1 - d) ^+ 2 by apply: le_trans g; rewrite exprn_ge0 ?ler0n.
rewrite ger0_norm ?addr_ge0 ?normr_ge0 // => e.
have : 2%:R ^+ 2 <= (1 - d) ^+ 2 + `|1 - (1 - d) ^+ 2| by apply: le_trans g _; rewrite ler_addl normr_ge0.
by rewrite e -natrX lern1.
Qed.

Lemma heat_none : exists U S : mtx, [/\ special_unitary cj (mxr 3 3 U), special_unitary cj (mxr 3 3 S) &
  forall rnd beta, heatbath FS cj re im root log exp sin cos I pi2 rnd 3 beta U S = None].
Proof.
pose U (i j : nat) : F := if i == j then if i == 0%N then 1 else -1 else 0.
pose S (i j : nat) : F := (i == j)%:R.
have eS : mxr 3 3 S = 1%:M by apply/matrixP => i j; rewrite !mxE.
exists U, S; split; last first.
- move=> rnd beta; rewrite /heatbath /heat_sweep; set b3 := div FS _ _; set A : mtx := op_mul FS 3 3 3 U _.
  have eA : mxr 3 3 A = mxr 3 3 U by rewrite /A op_mul_mx // daggerE eS adjoint_scalar rmorph1 mulmx1.
  have z : heat_hit FS re im root log exp sin cos I pi2 rnd 3 b3 0 1 (mkHeat FS U A 0 0 0 true) = None.
    rewrite heat_hitE; cbv zeta; rewrite (strength0 P) ?eqxx //.
    have -> : project A 0 1 = su2_scalar FS (0 : F).
      rewrite (@project_diag _ f u _ _ _ _ _ P 3 A 0 1 1 (-1)) //; try by rewrite (mxr_entry _ _ eA) mxE.
      have i1 : im 1 = 0 by rewrite (imE P) rmorph1 subrr mul0r.
      have i2 : im (-1) = 0 by rewrite (imE P) rmorphN rmorph1 subrr mul0r.
      by apply: su2_ext; rewrite //= ?i1 ?i2 ?subrr ?mul0r // -(reD P) subrr (re0 P) mul0r.
    by rewrite /su2_det /= !mul0r !addr0.
  have L St a (body : nat -> St -> option St) st : body a st = None -> loopo a a.+2 body st = None.
    by rewrite /loopo; have -> : (a.+2 - a)%coq_nat = 2%N; [rewrite -[LHS]/(a.+2 - a)%N -addn2 addKn|rewrite /= => ->].
  by rewrite (L _ 0%N) //; exact: (L _ 1%N).
- by rewrite eS; apply: special1.
have cu i : U i i * U i i = 1 by rewrite /U eqxx; case: ifP; rewrite ?mulrNN mulr1.
have cjU i j : cj (U i j) = U i j by rewrite /U; case: ifP => _; [case: ifP|]; rewrite ?rmorphN ?rmorph1 ?rmorph0.
split.
  apply/matrixP => i j; rewrite !mxE (bigD1 i) //= big1 => [|k ki].
    rewrite !mxE cjU addr0; case: (altP (i =P j)) => [<-|ij]; first by rewrite cu.
    by rewrite {2}/U -[(i : nat) == j]/(i == j) (negbTE ij) mulr0.
  by rewrite !mxE {1}/U -[(k : nat) == i]/(k == i) (negbTE ki) rmorph0 mul0r.
rewrite (_ : mxr 3 3 U = diag_mx (\row_i U i i)).
  by rewrite det_diag !big_ord_recl big_ord0 !mxE /U /= !mul1r !mulr1 mulrNN mulr1.
apply/matrixP => i j; rewrite !mxE; case: (altP (i =P j)) => [<-|ij] //.
by rewrite /U -[(i : nat) == j]/(i == j) (negbTE ij).
Qed.
End Result.
