(** Lists of staples; smearing lowers the action. *)
Set Warnings "-notation-overridden,-ambiguous-paths".
From Coq Require Import ZArith List Lia.
From mathcomp Require Import all_ssreflect all_fingroup all_algebra.
From Verif Require Import LinalgSpec FieldTac AlgebraModel AlgebraSpec AlgebraProofs2 AlgebraProofs4 AlgebraProofs5 AlgebraProps
  GaugeModel GaugeSpec GaugeMatrix GaugeProofs1 GaugeProofs2 MatrixSpec ForceModel ForceSpec
  ForceProofs1 ForceProofs2 ForceProofs3 ForceProofs4 ForceProofs5 ForceProofs7 ForceProofs10 ForceProps
  ForceProofs9 GaussModel GaussSpec GaussProofs1 GaussProofs2 GaussProofs3 GaussProofs4 GaussProofs6 GaussProofs7
  FlowModel FlowSpec FlowProofs1 FlowProofs2 FlowProofs7 FlowProofs8
  FlowstepSpec FlowstepProofs1 FlowstepProofs2 FlowProofs9 FlowstepProofs3 StoutModel StoutSpec StoutProofs0 StoutProofs1 StoutProofs3.
Set Implicit Arguments.
Unset Strict Implicit.
Set Implicit Arguments.
Unset Strict Implicit.
Unset Printing Implicit Defensive.
Import Order.TTheory GRing.Theory Num.Theory.
Local Open Scope ring_scope.

Section Sums.
Variable R : zmodType.
Implicit Types F f : nat -> R.

Lemma skip_sum (N d : nat) F : (d <= N)%N ->
  \sum_(0 <= k < N) F (if (k < d)%N then k else k.+1) = \sum_(0 <= i < N.+1 | i != d) F i.
Proof.
move=> hd; rewrite (@big_cat_nat _ _ _ d) //= [RHS](@big_cat_nat _ _ _ d) //=; last exact: leqW.
congr (_ + _).
  rewrite [RHS]big_nat_cond [LHS]big_nat_cond; apply: eq_big => [i|i /andP [/andP [_ h] _]]; last by rewrite h.
  by rewrite andbT; case: (ltnP i d) => h; rewrite ?andbF ?andbT //= neq_ltn h.
rewrite [RHS]big_mkcond [RHS]big_ltn ?ltnS // eqxx /= add0r big_add1 -big_mkcond /=.
rewrite [RHS]big_nat_cond [LHS]big_nat_cond; apply: eq_big => [i|i /andP [/andP [h _] _]]; last by rewrite ltnNge h.
by rewrite andbT; case: (leqP d i) => h //=; rewrite gtn_eqF ?ltnS // andbT.
Qed.

Lemma two_halves (N : nat) f : \sum_(0 <= k < N + N) f k = \sum_(0 <= k < N) (f k + f (N + (N - k.+1))%N).
Proof.
rewrite (@big_cat_nat _ _ _ N) ?leq_addr //= big_split /=; congr (_ + _).
rewrite -{1}[N]add0n big_addn addnK big_nat_rev /= add0n.
by apply: eq_bigr => i _; rewrite addnC.
Qed.
End Sums.

Section Stout.
Variables (C : numClosedFieldType) (n : nat) (L : list Z) (ex : (nat -> C) -> 'M[C]_n).
Hypotheses (n0 : (0 < n)%N) (HL : sizes L).
Notation CM := (complex_matrices C n).
Notation SU := (su_algebra C n).
Notation PG := (su_gauss ex).
Notation dn := (GaugeModel.down L).
Notation part := (@ForceSpec.algebra_part C n).
Implicit Types U V W : links C n.

Lemma upperE V d d2 x : on_lattice L x -> upper CM L V d d2 x = upper_staple L V d d2 x.
Proof.
move=> hx; rewrite /upper /upper_staple.
rewrite -[LHS]/(V d2 (up L d x) *m dg (V d2 x *m V d (up L d2 x))) dg_mul.
rewrite -[RHS]/(V d2 (up L d x) *m (dg (V d (dn d (up L d2 (up L d x)))) *m
    (dg (V d2 (dn d2 (dn d (up L d2 (up L d x))))) *m 1%:M))) mulmx1.
have hy := up_on L d2 x HL hx.
by rewrite (up_comm L d2 d) (down_up _ _ _ HL hy) (down_up _ _ _ HL hx).
Qed.
Lemma lowerE V d d2 x : on_lattice L x -> lower CM L V d d2 x = lower_staple L V d d2 x.
Proof.
move=> hx; have hx2 := down_on L d2 x HL hx.
rewrite /lower /lower_staple -[LHS]/(dg (V d (dn d2 x) *m V d2 (up L d (dn d2 x))) *m V d2 (dn d2 x)) dg_mul.
rewrite -[RHS]/(dg (V d2 (dn d2 (up L d x))) *m (dg (V d (dn d (dn d2 (up L d x)))) *m
    (V d2 (dn d (dn d2 (up L d x))) *m 1%:M))) mulmx1.
by rewrite -(up_down_comm L d d2 x HL) (down_up _ _ _ HL hx2) !mulmxA.
Qed.

Lemma staples_two V d x : on_lattice L x ->
  staples L V d x = \sum_(d2 <- directions L | d2 != d) (upper_staple L V d d2 x + lower_staple L V d d2 x).
Proof. by move=> hx; apply: eq_bigr => d2 _; rewrite -(upperE V d d2 hx) -(lowerE V d d2 hx). Qed.

Notation SSf V SS Sm := (fst (get_stout_staples CM L V SS Sm)).
Lemma fold_mat (f : nat -> 'M[C]_n) l (s : 'M[C]_n) : fold_left (fun s k => madd CM s (f k)) l s = s + \sum_(k <- l) f k.
Proof.
elim: l s => [|k l IH] s; first by rewrite big_nil addr0.
rewrite [LHS]IH big_cons addrA; reflexivity.
Qed.

Lemma list_iota a m : List.seq a m = iota a m.
Proof. by elim: m a => [//|m IH] a /=; rewrite IH. Qed.

Lemma sums_two V (SS : staple_list CM) (Sm : gauge CM) d x : (1 < length L)%N -> (d < length L)%N -> on_lattice L x ->
  snd (get_stout_staples CM L V SS Sm) d x
  = \sum_(d2 <- directions L | d2 != d) (upper_staple L V d d2 x + lower_staple L V d d2 x).
Proof.
move=> h1 hd hx; rewrite (@sums CM L V SS Sm d x (ssrnat.ltP hd)).
have P d2 : (d2 < length L)%N -> d2 != d -> _ :=
  fun h2 nd => @staples_placed CM L V SS Sm d d2 x (ssrnat.ltP hd) (ssrnat.ltP h2) (elimN eqP nd).
move: P; set f := SSf V SS Sm => P.
pose N := (length L).-1; have eN : length L = N.+1 by rewrite prednK // ltnW.
have N0 : (0 < N)%N by rewrite -ltnS -eN.
rewrite eN count_staples -[Nat.pred _]/((N + N).-1).
rewrite (fold_mat (fun k => f (Z.of_nat k) d x)).
rewrite list_iota -[X in iota 1 X]subn1 -/(index_iota 1 (N + N)%N).
have e0 := @big_ltn _ 0 (+%R) 0%N (N + N)%N (fun k => f (Z.of_nat k) d x) (ltn_addr _ N0).
rewrite -[X in X + _]/(f (Z.of_nat 0) d x) -e0 two_halves.
have Hd : (d <= N)%N by rewrite -ltnS -eN.
have -> : directions L = index_iota 0 N.+1 by rewrite directions_iota eN /index_iota subn0.
rewrite -(skip_sum _ Hd) big_nat_cond [RHS]big_nat_cond; apply: eq_bigr => k /andP [/andP [_ hk] _].
set d2 := (if (k < d)%N then k else k.+1).
have h2 : (d2 < length L)%N by rewrite /d2 eN; case: ifP => _; rewrite ltnS // ltnW.
have n2 : d2 != d.
  by rewrite /d2; case: ltnP => h; [rewrite ltn_eqF|rewrite gtn_eqF].
have [u l] := P d2 h2 n2; rewrite -(upperE V d d2 hx) -(lowerE V d d2 hx) -u -l; congr (_ + _).
  apply: (f_equal (fun z => f z d x)); rewrite /rank /d2 ltb_lt; case: (ltnP k d) => h.
    by rewrite h.
  rewrite ltnNge (leqW h); exact: (esym (next_place k)).
apply: (f_equal (fun z => f z d x)).
have -> : rank d d2 = Z.of_nat k.
  rewrite /rank /d2 ltb_lt; case: (ltnP k d) => h; first by rewrite h.
  rewrite ltnNge (leqW h); exact: next_place.
rewrite eN; exact: (esym (back_place _ _ (ssrnat.ltP hk))).
Qed.
End Stout.

(** ** Smearing lowers the action *)
Section Action.
Variables (C : numClosedFieldType) (n : nat) (L : list Z) (ex : (nat -> C) -> 'M[C]_n).
Hypotheses (n0 : (0 < n)%N) (HL : sizes L) (hL : (1 < length L)%N).
Hypothesis HE : matrix_exponential ex.
Hypothesis H0 : exponential_at_0 ex.
Notation CM := (complex_matrices C n).
Notation SU := (su_algebra C n).
Notation PG := (su_gauss ex).
Notation part := (@ForceSpec.algebra_part C n).
Variables V S : links C n.

Lemma ex_same (a b : nat -> C) : algebra_matrix n a = algebra_matrix n b -> ex a = ex b.
Proof.
move=> e; have u : GaugeSpec.unitary CM (1%:M : 'M[C]_n).
  by split; rewrite -[dagger CM _]/(dg _) dg1 -[mul CM _ _]/(_ *m _) mulmx1.
have := HE.2 b a 1%:M u; rewrite -[conjugate _]/(dg _) dg1 !mul1mx !mulmx1; exact.
Qed.

Let K (d : nat) (x : site) : nat -> C := components (- 1) (V d x *m staples L V d x).
Lemma K_real : real_momenta n L K.
Proof.
move=> d x k hd hx hk; have r1 : (- 1 : C) \is Num.real by rewrite realN real1.
exact: (components_ok n0 (V d x *m staples L V d x) r1).1.
Qed.

Lemma smear_moves : links_move L (fun t => stout_smear1 CM SU PG L V S t) V K.
Proof.
move=> d x i j hd hx.
have r1 : (- 1 : C) \is Num.real by rewrite realN real1.
have [Rk Ek] := components_ok n0 (V d x *m staples L V d x) r1.
have D : mderiv (fun t => ex (fun k => t * K d x k)) (1%:M : 'M[C]_n) (algebra_matrix n (K d x)).
  by move=> i' j'; exact: H0.
have := mderiv_mul D (mderiv_const (V d x)); rewrite mulmx0 add0r mul1mx => /(_ i j).
apply: deriv_ext => t rt; rewrite (smear1E ex V S t x hd) /smear.
have rn : - t \is Num.real by rewrite realN.
have [_ Et] := components_ok n0 (V d x *m staples L V d x) rn.
rewrite (@ex_same (components (- t) (V d x *m staples L V d x)) (fun k => t * K d x k)) //.
rewrite Et; have := Ex_lin n (fun _ => 0) (K d x) rt; rewrite Ex0 add0r => E.
have -> : algebra_matrix n (fun k => t * K d x k) = t *: algebra_matrix n (K d x).
  by rewrite -E; apply: Ex_ext => k _; rewrite add0r.
by rewrite Ek scalerA mulrN1.
Qed.

Lemma norm_part (a : nat -> C) (A : 'M[C]_n) : real_components (n * n - 1) a -> algebra_matrix n a = - part A ->
  \sum_(k < n * n - 1) a k * a k = 2%:R * \sum_i \sum_j `|part A i j| ^+ 2.
Proof.
move=> R E; have := dot_Ex n0 R R; rewrite /dot => ->; rewrite E mulNmx mulmxN opprK -mulrN; congr (_ * _).
have e : dg (part A) = - part A by exact: part_anti.
have -> : - 'Re (\tr (part A *m part A)) = 'Re (\tr (part A *m dg (part A))).
  by rewrite e mulmxN linearN raddfN.
move: (part A) => B {e E}; rewrite /mxtrace raddf_sum; apply: eq_bigr => i _; rewrite mxE raddf_sum; apply: eq_bigr => j _.
by rewrite !mxE -normCK; apply/Creal_ReP; rewrite realX // normr_real.
Qed.

Lemma smear_action : derivative (fun t => measure_s_wplaq CM L (stout_smear1 CM SU PG L V S t)) (measure_s_wplaq CM L V)
  (- ((\sum_(d <- directions L) \sum_(x <- sites L) \sum_i \sum_j `|part (plaquette_sum L V d x) i j| ^+ 2) / n%:R)).
Proof.
have [_ G] := wplaq_gradient n0 HL V (fun _ => 0) (fun _ _ _ => 0) hL (real1 C).
have [D HD P] := G _ K K_real smear_moves.
suff <- : D = - ((\sum_(d <- directions L) \sum_(x <- sites L) \sum_i \sum_j `|part (plaquette_sum L V d x) i j| ^+ 2) / n%:R) by exact: HD.
have nz : (n%:R : C) != 0 by rewrite pnatr_eq0 -lt0n.
have t0 : (2%:R : C) != 0 by rewrite pnatr_eq0.
have e : product n L K (get_force_wplaq CM SU L V (fun _ => 0) (fun _ _ _ => 0) 1)
   = 2%:R * (\sum_(d <- directions L) \sum_(x <- sites L) \sum_i \sum_j `|part (plaquette_sum L V d x) i j| ^+ 2).
  rewrite mulr_sumr; apply: big_In => d /directions_lt hd; rewrite mulr_sumr; apply: sum_sites => x hx.
  have r1 : (- 1 : C) \is Num.real by rewrite realN real1.
  have [Rk Ek] := components_ok n0 (V d x *m staples L V d x) r1.
  rewrite (force_at V _ _ _ x hL hd) -/(K d x) -(@norm_part (K d x)) //.
  rewrite Ek scaleN1r plaquettesE //.
rewrite e mulr1 in P; move: P; set Q := \sum_(d <- _) _ => P.
apply: (mulIf nz); rewrite mulNr (divfK nz); apply: (mulfI t0); rewrite mulrN P mulNr opprK -mulrA.
by congr (_ * _); exact: mulrC.
Qed.
End Action.

(** ** The Cayley transform *)
Section Cayley.
Variable C : numClosedFieldType.
Notation Ex := (@algebra_matrix C 2).

Lemma entry_unitary (c : 'M[C]_2) i j : c *m dg c = 1%:M -> `|c i j| <= 1.
Proof.
move=> H; have : (c *m dg c) i i = 1 by rewrite H mxE eqxx.
rewrite mxE => e; have {e} : \sum_k `|c i k| ^+ 2 = 1 by rewrite -[RHS]e; apply: eq_bigr => k _; rewrite !mxE normCK.
rewrite (bigD1 j) //= => e; rewrite -(@ler_pexpn2r _ 2) ?nnegrE ?ler01 // expr1n -e ler_addl.
by apply: sumr_ge0 => k _; rewrite exprn_ge0.
Qed.

Lemma cayley_at_0 : exponential_at_0 (@cayley C).
Proof.
move=> a i j R; pose A := Ex a; exists (2%:R^-1 * \sum_k `|(A *m A) i k|) => t rt t1.
have Rt : real_components 3 (fun k => t * a k) by move=> k hk; rewrite realM //; exact: R.
have EA : Ex (fun k => t * a k) = t *: A.
  by have := Ex_lin 2 (fun _ => 0) a rt; rewrite Ex0 add0r => <-; apply: Ex_ext => k _; rewrite add0r.
have [[u _] _] := cayley_special Rt; have N := N_unit Rt.
have {}u : cayley (fun k => t * a k) *m dg (cayley (fun k => t * a k)) = 1%:M by exact: u.
have E : (1%:M - 2%:R^-1 *: (t *: A)) *m cayley (fun k => t * a k) = 1%:M + 2%:R^-1 *: (t *: A).
  by rewrite /cayley -EA mulKVmx.
move: (cayley _) u E => c u E.
have {}E : c - 1%:M - t *: A = (2%:R^-1 * 2%:R^-1 * t ^+ 2) *: (A *m A *m (1%:M + c)).
  move: E; set B := 2%:R^-1 *: (t *: A) => E.
  have e1 : c = 1%:M + B + B *m c by move: E; rewrite mulmxBl mul1mx => /eqP; rewrite subr_eq => /eqP.
  have e2 : c - 1%:M = B *m (1%:M + c) by rewrite {1}e1 mulmxDr mulmx1 -addrA addrC addKr.
  have e3 : t *: A = B + B.
    by rewrite -mulr2n -scaler_nat /B [RHS]scalerA mulfV ?pnatr_eq0 // scale1r.
  have e4 : B *m (1%:M + c) - B - B = B *m (c - 1%:M).
    by rewrite mulmxDr mulmx1 [B + _]addrC addrK mulmxBr mulmx1.
  rewrite e3 opprD addrA {1}e2 e4 e2 mulmxA [RHS]scalemxAl; congr (_ *m _).
  rewrite /B -!scalemxAl -!scalemxAr !scalerA expr2; congr (_ *: _); by rewrite mulrACA -!mulrA.
have -> : c i j - (1%:M : 'M[C]_2) i j - t * A i j = (c - 1%:M - t *: A) i j by rewrite !mxE.
rewrite E mxE normrM; move: (A *m A) => Q.
have q0 : 0 <= (2%:R^-1 : C) by rewrite invr_ge0 ler0n.
rewrite normrM normrX (ger0_norm (mulr_ge0 q0 q0)) mulrAC ler_wpmul2r ?exprn_ge0 //.
rewrite -mulrA ler_wpmul2l // [X in `|X|]mxE mulrC ler_pdivr_mulr ?ltr0n // mulr_suml.
apply: (le_trans (ler_norm_sum _ _ _)); apply: ler_sum => k _; rewrite normrM ler_wpmul2l //.
rewrite [X in `|X|]mxE; apply: (le_trans (ler_norm_add _ _)); rewrite -[X in _ <= X]/(1 + 1); apply: ler_add.
  by rewrite mxE; case: (_ == _); rewrite ?normr1 ?normr0 ?ler01.
exact: entry_unitary.
Qed.
End Cayley.

Lemma rank_nat (d d2 : nat) : d2 <> d -> Z.of_nat (if (d2 < d)%N then d2 else d2.-1) = rank d d2.
Proof.
move=> nd; rewrite /rank ltb_lt; case: ltnP => h //.
case: d2 nd h => [|d2] nd h; last exact: (esym (next_place d2)).
by move: h; rewrite leqn0 => /eqP e; case: nd.
Qed.
Lemma back_nat (L : list Z) (d d2 : nat) : (1 < length L)%N -> (d < length L)%N -> (d2 < length L)%N -> d2 <> d ->
  Z.of_nat (2 * (length L).-1 - 1 - (if (d2 < d)%N then d2 else d2.-1))
  = Z.sub (Z.sub (Z.mul (Zpos (xO xH)) (Z.sub (Z.of_nat (length L)) (Zpos xH))) (Zpos xH)) (rank d d2).
Proof.
move=> h1 hd h2 nd; rewrite -ltb_lt.
exact: (back_nat0 _ _ _ (ssrnat.ltP h1) (ssrnat.ltP hd) (ssrnat.ltP h2) nd).
Qed.

(** ** One link *)
Section Words.
Variables (M : matrices) (ML : matrix_laws M) (D : GaugeModel.mat M).
Notation line := (path_line (M := M) square2 (one_link D)).
Lemma staple_words : line [:: Up 0; Up 1; Down 0; Down 1] origin = D /\ line [:: Up 0; Down 1; Down 0; Up 1] origin = D.
Proof.
have d1 := ForceProofs4.dag_one ML.
by split; cbv -[GaugeModel.mul dagger mone]; rewrite ?d1 ?(m_one_l M ML) ?(m_one_r M ML).
Qed.
End Words.

Lemma one_link_part (C : numClosedFieldType) :
  ForceSpec.algebra_part (plaquette_sum square2 (@one_link (complex_matrices C 2) (root1 C)) 0 origin) <> 0.
Proof.
have [w1 w2] := staple_words (complex_matrix_laws C 2) (root1 C).
pose f (d2 : nat) : 'M[C]_2 := path_line (M := complex_matrices C 2) square2 (one_link (M := complex_matrices C 2) (root1 C)) [:: Up 0; Up d2; Down 0; Down d2] origin
  + path_line (M := complex_matrices C 2) square2 (one_link (M := complex_matrices C 2) (root1 C)) [:: Up 0; Down d2; Down 0; Up d2] origin.
have e : plaquette_sum square2 (@one_link (complex_matrices C 2) (root1 C)) 0 origin = \sum_(d2 <- [:: 0; 1]%N | d2 != 0%N) f d2 by [].
have e1 : f 1%N = root1 C + root1 C by exact: (f_equal2 (fun A B : 'M[C]_2 => A + B) w1 w2).
have e2 : \sum_(d2 <- [:: 0; 1]%N | d2 != 0%N) f d2 = f 1%N by rewrite !big_cons big_nil addr0.
rewrite e e2 e1.
have P : ForceSpec.algebra_part (root1 C) = root1 C.
  by rewrite (FlowProofs7.part_AP (root1 C)) -(Ex_toalg (ltn0Sn 1)) root1_part.
have := FlowProofs7.part_add (ltn0Sn 1) (root1 C) (root1 C); rewrite !P => P2 h0.
have z : root1 C + root1 C = 0 by exact: (eq_trans (esym P2) h0).
have := root1_sq C; have z2 : root1 C = 0.
  apply/matrixP => i j; have := f_equal (fun A : 'M[C]_2 => A i j) z; rewrite !mxE => /eqP.
  by rewrite -mulr2n mulrn_eq0 /= => /eqP.
rewrite z2 mulmx0 => h; have := f_equal (fun A : 'M[C]_2 => A 0 0) h; rewrite !mxE => /eqP.
by rewrite eq_sym oppr_eq0 oner_eq0.
Qed.
