(** The action along the flow and the measured derivatives. *)
Set Warnings "-notation-overridden,-ambiguous-paths".
From Coq Require Import ZArith List.
From mathcomp Require Import all_ssreflect all_fingroup all_algebra.
From Verif Require Import LinalgSpec FieldTac AlgebraModel AlgebraSpec AlgebraProofs2 AlgebraProofs4 AlgebraProofs5 AlgebraProps
  GaugeModel GaugeSpec GaugeMatrix GaugeProofs1 GaugeProofs2 MatrixSpec ForceModel ForceSpec
  ForceProofs1 ForceProofs2 ForceProofs3 ForceProofs4 ForceProofs5 ForceProofs7 ForceProofs10 ForceProps
  GaussModel GaussSpec GaussProofs1 GaussProofs2 GaussProofs3 GaussProofs4 GaussProofs7
  FlowModel FlowSpec FlowProofs1 FlowProofs2 FlowProofs3 FlowProofs4 FlowProofs5.
Set Implicit Arguments.
Unset Strict Implicit.
Unset Printing Implicit Defensive.
Import Order.TTheory GRing.Theory Num.Theory.
Local Open Scope ring_scope.

Section Along.
Variables (C : numClosedFieldType) (n : nat) (L : list Z).
Variables (ex : (nat -> C) -> 'M[C]_n) (power : C -> C) (fourpi2 : C) (reu : 'M[C]_n -> 'M[C]_n).
Variables (fbp flp : links C n -> moments C) (sbp slp : links C n -> C).
Hypothesis n0 : (0 < n)%N.
Hypothesis HL : sizes L.
Hypothesis hL : (1 < length L)%N.
Notation CM := (complex_matrices C n).
Notation LM := (complex_linear C n).
Notation SU := (su_algebra C n).
Notation PG := (su_gauss ex).
Notation QF := (su_flow power fourpi2 reu).
Notation Ex := (@algebra_matrix C n).
Notation prod := (product n L).
Notation force := (get_gf_force CM LM SU PG QF L fbp flp).
Notation action := (measure_gf_s CM LM SU QF L sbp slp).
Notation rct := (@rect C n power fourpi2 reu).
Notation plq := (@plaqw C n power fourpi2 reu).

Definition same (K K' : moments C) : Prop :=
  forall d x k, (d < length L)%N -> on_lattice L x -> (k < n * n - 1)%N -> K d x k = K' d x k.

Lemma prod_ext (K K' F F' : moments C) : same K K' -> same F F' -> prod K F = prod K' F'.
Proof.
by move=> H H'; apply: (@ip1_ext C n L) => d hd x k hx hk; [apply: H|apply: H'].
Qed.
Lemma prodC (K F : moments C) : prod K F = prod F K.
Proof. exact: (@ip1C C n L). Qed.

Lemma length2_ge0 (K : moments C) : real_momenta n L K -> 0 <= length2 n L K.
Proof. by move=> R; apply: (@ip1_ge0 C n L) => d hd x hx k hk; apply: R. Qed.

Lemma sum_part (T : Type) (l : list T) (f : T -> C) y : (forall x, In x l -> 0 <= f x) -> In y l ->
  f y <= \sum_(x <- l) f x.
Proof.
elim: l => [|a l IH] H; first by [].
rewrite big_cons /=; case=> [->|hy].
  by rewrite ler_addl; apply: sum_ge0_In => x hx; apply: H; right.
by apply: (le_trans (IH _ hy)) => [x hx|]; [apply: H; right|rewrite ler_addr; apply: H; left].
Qed.

Lemma length2_eq0 (K : moments C) : real_momenta n L K -> length2 n L K = 0 -> same K (fun _ _ _ => 0).
Proof.
move=> R Z d x k hd hx hk.
have P d' x' : (d' < length L)%N -> on_lattice L x' -> 0 <= \sum_(i < n * n - 1) K d' x' i * K d' x' i.
  move=> h h'; apply: sumr_ge0 => i _; rewrite -expr2.
  have r : K d' x' i \is Num.real by exact: R.
  by rewrite real_exprn_even_ge0.
have A : \sum_(i < n * n - 1) K d x i * K d x i <= length2 n L K.
  rewrite /length2 /product.
  pose f d x := \sum_(i < n * n - 1) K d x i * K d x i.
  have A1 : f d x <= \sum_(x <- sites L) f d x.
    by apply: (sum_part (f := f d)) => [x' /sites_In h'|]; [apply: P|apply/sites_In].
  have A2 : \sum_(x <- sites L) f d x <= \sum_(d <- directions L) \sum_(x <- sites L) f d x.
    apply: (sum_part (f := fun d => \sum_(x <- sites L) f d x)) => [d' /directions_lt h|].
      by apply: sum_ge0_In => x' /sites_In h'; apply: P.
    by apply/in_seq; split; [exact: Nat.le_0_l|apply/ssrnat.ltP].
  exact: le_trans A1 A2.
move: A; rewrite Z => A; have : K d x k * K d x k <= 0.
  apply: le_trans _ A; rewrite (bigD1 (Ordinal hk)) //= ler_addl.
  apply: sumr_ge0 => i _; rewrite -expr2.
  have r : K d x i \is Num.real by exact: R.
  by rewrite real_exprn_even_ge0.
have r : K d x k \is Num.real by exact: R.
by rewrite -expr2 real_exprn_even_le0 // => /eqP.
Qed.

(** ** The force of the flow *)

Lemma gf_gradient a V stale K0 E : modelled a -> a <> Zeuthen -> unitary_links L V ->
  gradient L (action a) (force a V stale K0 E) V (- (2%:R * n%:R)).
Proof.
move=> [m1 m2] m3 HV.
have e1 : - (2%:R * n%:R * frc C (Zpos xH) (Zpos xH)) = - (2%:R * n%:R) by rewrite frc1 mulr1.
have I a' : gradient L (fun U => measure_s_impr CM LM L U (plq a') (rct a'))
   (get_force_impr CM SU L V stale E (frc C (Zpos xH) (Zpos xH) * plq a') (frc C (Zpos xH) (Zpos xH) * rct a')) V (- (2%:R * n%:R)).
  have := impr_gradient n0 HL stale E hL HV (frc_real C (Zpos xH) (Zpos xH)) (plaqw_real power fourpi2 reu a') (rect_real power fourpi2 reu a').
  by rewrite e1; apply.
case: a m1 m2 m3 => // _ _ _; [|exact: I|exact: I|exact: I].
have := wplaq_gradient n0 HL V stale E hL (frc_real C (Zpos xH) (Zpos xH)).
by rewrite e1; apply.
Qed.

Lemma two_n_neq0 : 2%:R * n%:R != 0 :> C.
Proof. by rewrite mulf_neq0 ?pnatr_eq0 -?lt0n. Qed.

Lemma gf_zeuthen V stale K0 E : same (force Zeuthen V stale K0 E) (zeuthen L V (force Luscher_Weisz V stale K0 K0)).
Proof. by move=> d x k hd hx hk; apply: (zeuthen_value ex power fourpi2 reu V stale K0 E _ x k hd). Qed.

Lemma same_real K K' : same K K' -> real_momenta n L K' -> real_momenta n L K.
Proof. by move=> H R d x k hd hx hk; rewrite H //; apply: R. Qed.

Lemma gf_real a V stale K0 E : modelled a -> unitary_links L V -> real_momenta n L (force a V stale K0 E).
Proof.
move=> m HV.
have G a' E' : modelled a' -> a' <> Zeuthen -> real_momenta n L (force a' V stale K0 E').
  by move=> m' z'; case: (gf_gradient stale K0 E' m' z' HV).
have : a = Zeuthen \/ a <> Zeuthen by case: a m => _; [right|right|right|right|right|right|left].
case=> [->|z]; last exact: G.
by apply: (same_real (@gf_zeuthen V stale K0 E)); apply: (zeuthen_real n0); apply: G.
Qed.

(** ** The action along the flow *)

Lemma gf_decrease a U V stale K0 E : modelled a -> a <> Zeuthen -> unitary_links L V ->
  links_move L U V (force a V stale K0 E) ->
  derivative (fun t => action a (U t)) (action a V) (- (length2 n L (force a V stale K0 E) / (2%:R * n%:R))).
Proof.
move=> m z HV H; have [R G] := gf_gradient stale K0 E m z HV.
have [D DD P] := G U _ R H.
by rewrite /length2 P mulNr mulNr opprK [_ * D]mulrC (mulfK two_n_neq0).
Qed.

Lemma gf_decrease_zeuthen U V stale K0 E : unitary_links L V ->
  links_move L U V (force Zeuthen V stale K0 E) ->
  exists2 D, derivative (fun t => action Zeuthen (U t)) (action Zeuthen V) D &
    D <= - (length2 n L (force Luscher_Weisz V stale K0 K0) / (3%:R * n%:R)).
Proof.
move=> HV H; set F := force Luscher_Weisz V stale K0 K0.
have [R G] : gradient L (action Luscher_Weisz) F V (- (2%:R * n%:R)) by exact: gf_gradient.
have mz : modelled Zeuthen by [].
have [D DD P] := G U _ (gf_real stale K0 E mz HV) H.
exists D; first exact: DD.
move: P; rewrite (prod_ext (@gf_zeuthen V stale K0 E) (fun d x k _ _ _ => erefl (F d x k))) -/F prodC => P.
have B := zeuthen_positive n0 HL R HV; move: B; rewrite P mulNr => B.
have p2 : 0 < 2%:R * n%:R :> C by rewrite mulr_gt0 ?ltr0n.
have -> : length2 n L F / (3%:R * n%:R) = 2%:R / 3%:R * prod F F / (2%:R * n%:R).
  rewrite /length2; have t0 : 2%:R != 0 :> C by rewrite pnatr_eq0.
  rewrite [2%:R * n%:R]mulrC invfM [2%:R / 3%:R * _]mulrC !mulrA.
  rewrite invfM mulrA -[RHS]mulrA [n%:R^-1 * _]mulrC mulrA; congr (_ / _).
  by rewrite -[RHS]mulrA [3%:R^-1 / _]mulrC mulrA (mulfK t0).
by rewrite ler_oppr (ler_pdivr_mulr _ _ p2) mulNr [D * _]mulrC.
Qed.

(** ** The measured derivatives *)

Lemma sum_dotE (Kc K : moments C) : sum_dot CM SU QF L Kc K = prod K Kc / 2%:R.
Proof.
rewrite /sum_dot.
have E (l : list site) d (s : C) : fold_left (fun de x => radd CM de (adot CM SU QF (Kc d x) (K d x))) l s
    = s + (\sum_(x <- l) \sum_(k < n * n - 1) K d x k * Kc d x k) / 2%:R.
  elim: l s => [|x l IH] s; first by rewrite big_nil mul0r addr0.
  rewrite big_cons mulrDl addrA [LHS]/= IH; congr (_ + _).
  apply: (f_equal (fun z => s + z)); apply: (etrans (algebra_dotE (fun x : C => x) 0 n (Kc d x) (K d x))).
  by congr (_ / _); apply: eq_bigr => k _; rewrite mulrC.
have E2 (l : list nat) (s : C) : fold_left (fun de d => fold_left (fun de x => radd CM de (adot CM SU QF (Kc d x) (K d x))) (sites L) de) l s
    = s + (\sum_(d <- l) \sum_(x <- sites L) \sum_(k < n * n - 1) K d x k * Kc d x k) / 2%:R.
  elim: l s => [|d l IH] s; first by rewrite big_nil mul0r addr0.
  by rewrite big_cons mulrDl addrA [LHS]/= E IH.
by rewrite E2 add0r.
Qed.

Lemma half_of (x : C) : - (2%:R * n%:R * - 2%:R) * x / 2%:R = 2%:R * n%:R * x.
Proof.
have t0 : 2%:R != 0 :> C by rewrite pnatr_eq0.
by rewrite mulrN opprK -[_ * 2%:R * x]mulrA [2%:R * x]mulrC mulrA (mulfK t0).
Qed.

Lemma dE_wplaq a U V stale K0 K Kc : modelled a -> unitary_links L V ->
  links_move L U V (force a V stale K0 K) ->
  derivative (fun t => 2%:R * n%:R * measure_s_wplaq CM L (U t)) (2%:R * n%:R * measure_s_wplaq CM L V)
    (measure_dE_wplaq_dt CM LM SU PG QF L fbp flp a V stale K0 K Kc).
Proof.
move=> m HV H; rewrite /measure_dE_wplaq_dt sum_dotE.
have [_ G] := wplaq_gradient n0 HL V stale Kc hL (frc_real C (Zneg (xO xH)) (Zpos xH)).
have [D DD P] := G U _ (gf_real stale K0 K m HV) H.
have -> : prod (force a V stale K0 K) (get_force_wplaq CM SU L V stale Kc (frac CM SU QF (Zneg (xO xH)) (Zpos xH))) / 2%:R
  = 2%:R * n%:R * D by rewrite (frcE power fourpi2 reu) P frcm2 half_of.
exact: deriv_scale DD.
Qed.

Lemma dE_clov a U V stale K0 K Kc : modelled a -> unitary_links L V ->
  links_move L U V (force a V stale K0 K) ->
  derivative (fun t => 2%:R * n%:R * measure_s_clover CM LM L (U t)) (2%:R * n%:R * measure_s_clover CM LM L V)
    (measure_dE_clov_dt CM LM SU PG QF L fbp flp a V stale K0 K Kc).
Proof.
move=> m HV H; rewrite /measure_dE_clov_dt sum_dotE.
have [D [DD W]] := C88_force n0 HL (gf_real stale K0 K m HV) H HV.
have -> : prod (force a V stale K0 K) (get_force_clover CM LM SU L V Kc (frac CM SU QF (Zneg (xO xH)) (Zpos xH))) / 2%:R
  = 2%:R * n%:R * D.
  by rewrite -work0 (W Kc _).2 (frcE power fourpi2 reu) frcm2 -mulNr half_of.
exact: deriv_scale DD.
Qed.

(** ** The energy of the plaquettes *)

Lemma int_of_Z_mul a b : Z.le Z0 a -> Z.le Z0 b -> (int_of_Z (Z.mul a b))%:~R = (int_of_Z a)%:~R * (int_of_Z b)%:~R :> C.
Proof.
move=> a0 b0; rewrite -(Z2Nat.id _ a0) -(Z2Nat.id _ b0) -Nat2Z.inj_mul !int_of_nat.
by rewrite -intrM.
Qed.

Lemma eplaq_value (V : links C n) :
  volume C L * eplaq CM LM SU QF L n V = 2%:R * n%:R * measure_s_wplaq CM L V.
Proof.
set S := measure_s_wplaq CM L V; set nd := Z.of_nat (length L).
have v0 := volume_neq0 C HL; have v1 := volumeE C HL.
have z0 : Z.le Z0 (Common.zprod L) by exact: Z.lt_le_incl (Common.zprod_pos L HL).
have d2 : Z.lt (Zpos xH) nd by rewrite /nd; move/ssrnat.ltP: hL => h; rewrite -[Zpos xH]/(Z.of_nat 1); apply: inj_lt.
pose p := Z.mul nd (Z.sub nd (Zpos xH)).
have [q Hq] : exists q, p = Z.mul (Zpos (xO xH)) q.
  by case: (Z.Even_or_Odd nd) => [[m Em]|[m Em]]; rewrite /p Em; [exists (Z.mul m (Z.sub (Z.mul (Zpos (xO xH)) m) (Zpos xH)))|exists (Z.mul (Z.add (Z.mul (Zpos (xO xH)) m) (Zpos xH)) m)]; ring.
have p0 : Z.lt Z0 p by apply: Z.mul_pos_pos; [exact: (Z.lt_trans _ _ _ Z.lt_0_1 d2)|apply/Z.lt_0_sub; exact: d2].
have q0 : Z.lt Z0 q by move: p0; rewrite Hq => /(Z.lt_0_mul _ _) [[]|[]].
have E1 : Z.div (Z.mul (Z.mul (Common.zprod L) nd) (Z.sub nd (Zpos xH))) (Zpos (xO xH)) = Z.mul (Common.zprod L) q.
  rewrite -Z.mul_assoc -/p Hq -[RHS](Z.div_mul _ (Zpos (xO xH))) //; congr Z.div; ring.
rewrite /eplaq /plaquette_energy -/nd -/S -/p E1 !(frcE power fourpi2 reu) /frc !divr1.
have Q0 := Z.lt_le_incl _ _ q0.
rewrite -[LHS]/(volume C L * (S / (int_of_Z (Z.mul (Common.zprod L) q))%:~R * (int_of_Z p)%:~R * (int_of_Z (Z.of_nat n))%:~R)).
rewrite Hq !int_of_Z_mul // v1 int_of_nat.
have qn : (int_of_Z q)%:~R != 0 :> C.
  by rewrite -(Z2Nat.id _ Q0) int_of_nat pnatr_eq0; apply/eqP => e; move: q0; rewrite -(Z2Nat.id _ Q0) e.
rewrite -[(int_of_Z (Zpos (xO xH)))%:~R]/(2%:R : C).
rewrite invfM; move: (volume C L) v0 (_%:~R) qn => v v0 r r0.
rewrite [2%:R * r]mulrC ![in LHS]mulrA [v * S]mulrC -[S * v / v]mulrA (mulfV v0) mulr1.
by rewrite (divfK r0) -[S * 2%:R * _]mulrA [S * _]mulrC.
Qed.
End Along.
