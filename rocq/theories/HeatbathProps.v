(** The heat bath of SU(N) links. *)
Set Warnings "-notation-overridden,-ambiguous-paths".
From mathcomp Require Import all_ssreflect all_algebra.
From Verif Require Import FieldTac LinalgModel LinalgSpec MatrixModel MatrixSpec MatrixProofs1 EigenSpec SuModel SuSpec
  AlgebraModel AlgebraSpec AlgebraProps Su2Model Su2Spec Su2Proofs1 Su2Proofs2 OverrelaxProofs4
  HeatbathModel HeatbathSpec HeatbathProofs1 HeatbathProofs2 HeatbathProofs3 HeatbathProofs4.
Set Implicit Arguments.
Unset Strict Implicit.
Unset Printing Implicit Defensive.
Import Order.TTheory GRing.Theory Num.Theory.
Local Open Scope ring_scope.

(** C79: unless forty trials in a row failed in one of the subgroups, the link
    remains in SU(N), for any staple and any random numbers. *)
Theorem C79_link : forall (F : numFieldType) (f : F -> F) (u : F) (cj : {rmorphism F -> F})
    (re im root log exp sin cos : F -> F) (I pi2 : F), complex_parts cj re im root I ->
  real_functions log exp sin cos -> pi2 \is Num.real ->
  let FS := field_scalars f u in
  forall (rnd : nat -> F) n (beta : F) (U S : nat -> nat -> F) (st : heat FS), random_numbers rnd -> (0 < n)%N -> 0 < beta ->
  special_unitary cj (mxr n n U) ->
  heat_sweep FS cj re im root log exp sin cos I pi2 rnd n beta U S = Some st -> h_ok FS st ->
  special_unitary cj (mxr n n (h_U FS st : nat -> nat -> F)).
Proof.
move=> F f u cj re im root log exp sin cos I pi2 P R pr FS rnd n beta U S st D n0 b0 sU E ok.
have := heat_sweepP (f := f) (u := u) P R pr D S n0 b0 sU.
by case E': (heat_sweep _ _ _ _ _ _ _ _ _ _ _ _ _ _ _ _) => [st'|]; move: E'; rewrite [LHS]E // => -[<-] [[_ /(_ ok)]].
Qed.
Print Assumptions C79_link.

(** The value returned is from 1/40 to 1; for SU(1) it is 0 / 0.  If it is above
    h / (h + 39), with the number h of subgroups, the link remained in SU(N). *)
Theorem C79_rate : forall (F : numFieldType) (f : F -> F) (u : F) (cj : {rmorphism F -> F})
    (re im root log exp sin cos : F -> F) (I pi2 : F), complex_parts cj re im root I ->
  real_functions log exp sin cos -> pi2 \is Num.real ->
  let FS := field_scalars f u in
  forall (rnd : nat -> F) n (beta : F) (U S W : nat -> nat -> F) rate, random_numbers rnd -> (0 < n)%N -> 0 < beta ->
  special_unitary cj (mxr n n U) ->
  heatbath FS cj re im root log exp sin cos I pi2 rnd n beta U S = Some (W, rate) ->
  match rate with
  | Some r => let h := 'C(n, 2) in [/\ (1 < n)%N, 40%:R^-1 <= (r : F) <= 1 &
      h%:R / (h + 39)%:R < (r : F) -> special_unitary cj (mxr n n W)]
  | None => n = 1%N /\ W = U
  end.
Proof.
move=> F f u cj re im root log exp sin cos I pi2 P R pr FS rnd n beta U S W rate D n0 b0 sU E.
exact: (heatbathP P R pr D n0 b0 sU E).
Qed.
Print Assumptions C79_rate.

(** For SU(2) and a staple that is a multiple of an element of SU(2), as every sum
    of such elements is, the new link does not depend on the old one: it is T S,
    where T and the value returned depend on the staple, beta and the random
    numbers only.  It is in SU(2), whatever the random numbers, if
    beta^2 det S <= 4. *)
Theorem C79_su2 : forall (F : numFieldType) (f : F -> F) (u : F) (cj : {rmorphism F -> F})
    (re im root log exp sin cos : F -> F) (I pi2 : F), complex_parts cj re im root I ->
  real_functions log exp sin cos -> pi2 \is Num.real ->
  let FS := field_scalars f u in
  forall (rnd : nat -> F) (beta : F) (S : nat -> nat -> F) (s : su2 FS), random_numbers rnd -> 0 < beta ->
  real_su2 s -> mxr 2 2 S = mxr 2 2 (su2_matrix FS I s) -> mxr 2 2 S != 0 ->
  exists (T : 'M[F]_2) (rate : F),
    (forall U : nat -> nat -> F, special_unitary cj (mxr 2 2 U) ->
      exists2 W : nat -> nat -> F,
        heatbath FS cj re im root log exp sin cos I pi2 rnd 2 beta U S = Some (W, Some rate) &
        mxr 2 2 W = T *m mxr 2 2 S) /\
    (beta ^+ 2 * \det (mxr 2 2 S) <= 4%:R -> special_unitary cj (T *m mxr 2 2 S)).
Proof.
move=> F f u cj re im root log exp sin cos I pi2 P R pr FS rnd beta S s D b0 rs eS S0.
have ds : su2_det FS s != 0 by apply: contra S0; rewrite eS => /eqP d0; exact/eqP/(quat0 P rs d0).
pose one (i j : nat) : F := (i == j)%:R.
have so : special_unitary cj (mxr 2 2 one).
  have -> : mxr 2 2 one = 1%:M by apply/matrixP => i j; rewrite !mxE.
  by apply: OverrelaxProofs1.special1.
have Sp := heat2_special P R pr D b0 so rs ds eS.
have H U (sU : special_unitary cj (mxr 2 2 U)) := heat2 P R pr D b0 sU rs ds eS.
move: Sp H; cbv zeta; case: (choose _ _ _ _ _ _ _ _) => [[[d k] p] ok] [s1 s2] H.
exists ((2%:R / root (su2_det FS s * 4%:R)) *: mxr 2 2 (su2_matrix FS I (direction FS root sin cos pi2 rnd d p))), (1 / k%:R).
split=> [U /H [W e1 e2]|]; first by exists W; rewrite // e2 eS scalemxAl.
by rewrite eS (M_det P) -scalemxAl => /s2.
Qed.
Print Assumptions C79_su2.

(** In that case the new link is h S / sqrt(det S), where h is the element of SU(2)
    with the first component a0 that the rejection methods of Kennedy and Pendleton
    or Creutz give for al = beta sqrt(det S), and the other components are on a
    sphere; the value returned is one over the number of trials. *)
Theorem C79_sampling : forall (F : numFieldType) (f : F -> F) (u : F) (cj : {rmorphism F -> F})
    (re im root log exp sin cos : F -> F) (I pi2 : F), complex_parts cj re im root I ->
  real_functions log exp sin cos -> pi2 \is Num.real ->
  let FS := field_scalars f u in
  forall (rnd : nat -> F) (beta a0 : F) (tries used : nat) (U S : nat -> nat -> F) (s : su2 FS),
  random_numbers rnd -> 0 < beta -> special_unitary cj (mxr 2 2 U) ->
  real_su2 s -> mxr 2 2 S = mxr 2 2 (su2_matrix FS I s) -> mxr 2 2 S != 0 ->
  let z := root (\det (mxr 2 2 S)) in
  chosen log exp cos pi2 rnd (beta * z) a0 tries used ->
  let h := mkSu2 FS (uniform_a cos root pi2 rnd a0 used) (uniform_b sin root pi2 rnd a0 used)
    (uniform_c root rnd a0 used) a0 in
  exists2 W : nat -> nat -> F,
    heatbath FS cj re im root log exp sin cos I pi2 rnd 2 beta U S = Some (W, Some (1 / tries%:R)) &
    mxr 2 2 W = z^-1 *: (mxr 2 2 (su2_matrix FS I h) *m mxr 2 2 S).
Proof.
move=> F f u cj re im root log exp sin cos I pi2 P R pr FS rnd beta a0 tries used U S s D b0 sU rs eS S0.
have ds : su2_det FS s != 0 by apply: contra S0; rewrite eS => /eqP d0; exact/eqP/(quat0 P rs d0).
rewrite eS (M_det P); exact: (heat2_spec P R pr D b0 sU rs ds eS).
Qed.
Print Assumptions C79_sampling.

(** Random numbers for which the first trial of Kennedy and Pendleton is rejected
    and the first trial of Creutz gives a0 = 1/2, with the functions of
    C79_hypotheses. *)
Example C79_chosen : chosen (fun x : rat => 1 - x^-1) (fun y => (1 - y)^-1) (fun _ => 3%:R / 5%:R) 6%:R
  (fun k => nth 0 [:: 0; 3%:R / 4%:R; 0; 0; 2%:R^-1] k) 1 2%:R^-1 1 6.
Proof.
rewrite /chosen; set A := kp_accepted _ _ _ _ _ _; have -> : A = false by vm_compute.
have -> : (2%:R < 1 :> rat) = false by vm_compute.
by split.
Qed.

(** There are random numbers for which the link is not unitary afterwards: forty
    trials in a row failed, and the last one is used nevertheless. *)
Theorem C79_link_refuted : forall (F : numFieldType) (f : F -> F) (u : F) (cj : {rmorphism F -> F})
    (re im root log exp sin cos : F -> F) (I pi2 : F), complex_parts cj re im root I ->
  real_functions log exp sin cos -> pi2 \is Num.real ->
  let FS := field_scalars f u in
  exists (rnd : nat -> F) (beta : F) (U S W : nat -> nat -> F),
  [/\ random_numbers rnd, 0 < beta, special_unitary cj (mxr 2 2 U), special_unitary cj (mxr 2 2 S) &
    heatbath FS cj re im root log exp sin cos I pi2 rnd 2 beta U S = Some (W, Some (40%:R^-1)) /\
    ~ unitary cj (mxr 2 2 W)].
Proof. by move=> F f u cj re im root log exp sin cos I pi2 P R pr FS; exact: (heat_refuted f u P R pr). Qed.
Print Assumptions C79_link_refuted.

(** For SU(3) there are links and staples for which the code divides zero by zero,
    whatever beta and the random numbers. *)
Theorem C79_defined_refuted : forall (F : numFieldType) (f : F -> F) (u : F) (cj : {rmorphism F -> F})
    (re im root log exp sin cos : F -> F) (I pi2 : F), complex_parts cj re im root I ->
  let FS := field_scalars f u in
  exists U S : nat -> nat -> F, [/\ special_unitary cj (mxr 3 3 U), special_unitary cj (mxr 3 3 S) &
    forall rnd beta, heatbath FS cj re im root log exp sin cos I pi2 rnd 3 beta U S = None].
Proof. by move=> F f u cj re im root log exp sin cos I pi2 P FS; exact: (heat_none f u log exp sin cos pi2 P). Qed.
Print Assumptions C79_defined_refuted.

(** The complex numbers with functions that have the few properties of log, exp,
    sin and cos used, and random numbers k / (k + 1), meet the hypotheses. *)
Example C79_hypotheses : forall (C : numClosedFieldType),
  [/\ complex_parts (conjC : C -> C) (fun x => 'Re x) (fun x => 'Im x) (fun x => sqrtC x) 'i,
      real_functions (fun x : C => 1 - x^-1) (fun y => (1 - y)^-1) (fun _ => 4%:R / 5%:R) (fun _ => 3%:R / 5%:R) &
      random_numbers (fun k => k%:R / k.+1%:R : C)].
Proof.
move=> C; split; first exact: C73_hypotheses.
- split.
  + by move=> x x0 x1; rewrite subr_le0 -invr1 ler_pinv ?inE ?unitfE ?ltr01 ?oner_eq0 ?x0 ?gt_eqF.
  + move=> x y x0 xy y1; have y0 := lt_le_trans x0 xy.
    by rewrite ler_add2l ler_opp2 ler_pinv ?inE ?unitfE ?x0 ?y0 ?gt_eqF.
  + move=> y y0; have h1 : 1 <= 1 - y by rewrite ler_addl oppr_ge0.
    have h0 := lt_le_trans ltr01 h1; rewrite invr_gt0 h0; split=> //.
      by rewrite -[X in _ <= X]invr1 ler_pinv ?inE ?unitfE ?ltr01 ?oner_eq0 ?h0 ?gt_eqF.
    by rewrite invrK opprB addrCA subrr addr0.
  move=> x _; rewrite !realM ?realV ?realn //; split=> //.
  rewrite !expr_div_n -mulrDl -!natrX -natrD divff // pnatr_eq0 //.
by move=> k; rewrite divr_ge0 ?ler0n //= ltr_pdivr_mulr ?ltr0n // mul1r ltr_nat.
Qed.

(** One sweep of SU(2) over the rational numbers with i, for beta = 1 and unit
    matrices, with values of the functions given for the numbers needed: the first
    trial and the next one are rejected, the third is accepted. *)
Example C79_example :
  let re x := (x.1, 0) : num gauss in
  let im x := (x.2, 0) : num gauss in
  let cj x := (x.1, - x.2) : num gauss in
  let q (a b : ssrint.int) : num gauss := (a%:Q / b%:Q, 0) in
  let one (i j : nat) : num gauss := if i == j then (1, 0) else (0, 0) in
  let root x := (if x.1 == 4%:Q then 2%:Q else 4%:Q / 5%:Q, 0) : num gauss in
  let log x := (4%:Q * (x.1 - 1), 0) : num gauss in
  let rnd k := nth (q 0 1) [:: q 0 1; q 1 2; q 0 1; q 0 1; q 7 8; q 9 10; q 7 8; q 0 1; q 1 2] k in
  match heatbath gauss cj re im root log (fun _ => q 1 5) (fun _ => q 4 5) (fun _ => q 3 5) (0, 1) (6%:Q, 0) rnd 2 (1, 0) one one with
  | Some (W, Some r) => [&& W 0%N 0%N == q 3 5, W 0%N 1%N == (16%:Q / 25%:Q, 12%:Q / 25%:Q),
      W 1%N 0%N == (- 16%:Q / 25%:Q, 12%:Q / 25%:Q), W 1%N 1%N == q 3 5 & r == q 1 2]
  | _ => false
  end.
Proof. by vm_compute. Qed.
