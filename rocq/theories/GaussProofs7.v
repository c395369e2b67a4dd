(** Trajectories, gauge transformations, and a map that is [exponential]. *)
Set Warnings "-notation-overridden,-ambiguous-paths".
From Coq Require Import ZArith List.
From mathcomp Require Import all_ssreflect all_algebra.
From Verif Require Import LinalgSpec AlgebraModel AlgebraSpec AlgebraProofs4
  GaugeModel GaugeSpec GaugeMatrix GaugeProofs1 GaugeProofs2 MatrixSpec ForceModel ForceSpec
  ForceProofs1 ForceProofs2 ForceProofs3 ForceProofs4 ForceProofs5 ForceProofs10 GaussModel GaussSpec GaussProofs1 GaussProofs2
  GaussProofs3 GaussProofs4 GaussProofs6.
Set Implicit Arguments.
Unset Strict Implicit.
Unset Printing Implicit Defensive.
Import Order.TTheory GRing.Theory Num.Theory.
Local Open Scope ring_scope.

Section Trajectory.
Variables (C : numClosedFieldType) (n : nat) (L : list Z) (ex : (nat -> C) -> 'M[C]_n).
Hypotheses (n0 : (0 < n)%N) (HL : sizes L) (h1 : (1 < length L)%N) (HX : exponential ex).
Notation CM := (complex_matrices C n).
Notation LM := (complex_linear C n).
Notation SU := (su_algebra C n).
Notation PG := (su_gauss ex).

Definition same_law (U U' : links C n) (E E' : moments C) : Prop :=
  [/\ unitary_links L U', real_momenta n L E' &
      forall x, on_lattice L x -> divergence L U' E' x = divergence L U E x].

Lemma same_trans U U' U2 E E' E2 : same_law U U' E E' -> same_law U' U2 E' E2 -> same_law U U2 E E2.
Proof.
by move=> [_ _ D] [V R D2]; split; [exact: V|exact: R|move=> x hx; exact: (etrans (D2 x hx) (D x hx))].
Qed.

Lemma same_U U E delta : delta \is Num.real -> unitary_links L U -> real_momenta n L E ->
  same_law U (update_U CM SU PG L U E delta) E E.
Proof.
by move=> rd HU R; have [V D] := update_U_facts HL HU HX rd R; split; [exact: V|exact: R|exact: D].
Qed.
Lemma same_E U E delta : delta \is Num.real -> unitary_links L U -> real_momenta n L E ->
  exists E', update_E CM SU PG L U E delta = Some E' /\ same_law U U E E'.
Proof.
move=> rd HU R; have [E' [H RE D]] := update_E_facts ex n0 HL HU h1 rd R.
by exists E'; split; [exact: H|split; [exact: HU|exact: RE|exact: D]].
Qed.

Lemma steps_law steps dt U E : dt \is Num.real -> unitary_links L U -> real_momenta n L E ->
  exists U' E', leapfrog_steps CM SU PG L steps dt U E = Some (U', E') /\ same_law U U' E E'.
Proof.
move=> rd; elim: steps U E => [|steps IH] U E HU R; cbn [leapfrog_steps].
  by exists U, E; split; [reflexivity|split; [exact: HU|exact: R|reflexivity]].
have [E1 [-> S1]] := same_E rd HU R; have [_ R1 _] := S1.
have S2 := same_U rd HU R1; have [HU2 R2 _] := S2.
have [U' [E' [H S3]]] := IH _ E1 HU2 R2.
exists U', E'; split; [exact: H|exact: (same_trans S1 (same_trans S2 S3))].
Qed.

Lemma leapfrog_law mi dt U E : dt \is Num.real -> unitary_links L U -> real_momenta n L E ->
  exists U' E', leapfrog CM LM SU PG L mi dt U E = Some (U', E') /\ same_law U U' E E'.
Proof.
move=> rd HU R; rewrite /leapfrog; cbv zeta.
have rh : rmul CM LM dt (rhalf CM LM) \is Num.real.
  by rewrite -[rmul _ _ _ _]/(dt * 2%:R^-1) rpredM // realV realn.
move: (rmul CM LM dt (rhalf CM LM)) rh => half rh.
have S1 := same_U rh HU R; have [HU1 _ _] := S1.
have [U2 [E2 [-> S2]]] := steps_law (mi - 1) rd HU1 R; have [HU2 R2 _] := S2.
have [E3 [-> S3]] := same_E rd HU2 R2; have [_ R3 _] := S3.
have S4 := same_U rh HU2 R3.
eexists; eexists; split; [reflexivity|exact: (same_trans S1 (same_trans S2 (same_trans S3 S4)))].
Qed.

Lemma measured U E : unitary_links L U -> real_momenta n L E ->
  measure_violation CM SU PG L U E = total_violation L U E.
Proof.
move=> HU /realm_of R; rewrite (violationE n0 HL HU R) /measure_violation.
have Q : eqf n L (get_gauss_violation CM SU PG L U E) (DV L U E).
  by move=> x k _ _; apply: gauss_value.
rewrite norm_value; last exact: (eqf_real Q (DV_real n0 U R)).
exact: ip_ext.
Qed.

Lemma law_violation U U' E E' : same_law U U' E E' -> total_violation L U' E' = total_violation L U E.
Proof.
by move=> [_ _ D]; apply: sum_sites => x hx; rewrite D.
Qed.

Lemma turns_law turns mi dt U0 E0 U E meas : dt \is Num.real -> same_law U0 U E0 E ->
  (forall v, In v meas -> v = total_violation L U0 E0) ->
  exists U' E' meas', trajectory_turns CM LM SU PG L turns mi dt U E meas = Some (U', E', meas') /\
    [/\ same_law U0 U' E0 E', length meas' = (length meas + turns)%N &
      forall v, In v meas' -> v = total_violation L U0 E0].
Proof.
move=> rd; elim: turns U E meas => [|turns IH] U E meas S0 HM; cbn [trajectory_turns].
  by exists U, E, meas; split; [reflexivity|split; [exact: S0|rewrite addn0|exact: HM]].
have [HU R _] := S0; have [U1 [E1 [-> S1]]] := leapfrog_law mi rd HU R.
have S2 := same_trans S0 S1; have [HU1 R1 _] := S2.
have [|U' [E' [meas' [H [S3 LEN HM']]]]] := IH U1 E1 (meas ++ [:: measure_violation CM SU PG L U1 E1])%list S2.
  move=> v /in_app_iff [/HM //|[<-|[]]]; by rewrite (measured HU1 R1) (law_violation S2).
exists U', E', meas'; split; [exact: H|split; [exact: S3| |exact: HM']].
by rewrite LEN app_length /= -addnA add1n.
Qed.

Lemma trajectory_law trajlen mi dt U E : dt \is Num.real -> unitary_links L U -> real_momenta n L E ->
  exists U' E' meas, do_trajectory CM LM SU PG L trajlen mi dt U E = Some (U', E', meas) /\
    [/\ same_law U U' E E', length meas = (Nat.div (trajlen + mi - 1) mi).+1 &
      forall v, In v meas -> v = total_violation L U E].
Proof.
move=> rd HU R; rewrite /do_trajectory.
have S0 : same_law U U E E by split; [exact: HU|exact: R|reflexivity].
have [|U' [E' [meas [H [S LEN HM]]]]] := turns_law (meas := [:: measure_violation CM SU PG L U E])
  (Nat.div (trajlen + mi - 1) mi) mi rd S0.
  by move=> v [<-|[]]; apply: measured.
exists U', E', meas; split; [exact: H|split; [exact: S|exact: LEN|exact: HM]].
Qed.
End Trajectory.

(** ** Gauge transformations *)
Section Covariant.
Variables (C : numClosedFieldType) (n : nat) (L : list Z).
Hypothesis HL : sizes L.
Notation CM := (complex_matrices C n).

Lemma unitary_dg (A : 'M[C]_n) : GaugeSpec.unitary CM A -> A *m dg A = 1%:M /\ dg A *m A = 1%:M.
Proof. by []. Qed.

Lemma covariant_divergence g U E E' x : (forall y, on_lattice L y -> GaugeSpec.unitary CM (g y)) ->
  @transformed C n L g E E' -> on_lattice L x ->
  divergence L (transform CM L g U) E' x = g x *m divergence L U E x *m dg (g x).
Proof.
move=> Hg T hx; rewrite /divergence mulmx_sumr mulmx_suml; apply: big_In => d /directions_lt h.
have hd := down_on L d x HL hx; have [_ g1] := unitary_dg (Hg _ hd).
rewrite mulmxBr mulmxBl (T d x h hx) (T d _ h hd); congr (_ - _).
rewrite /conjugate /transform -!/(dg _) (up_down L d x HL hx).
rewrite -[mul CM _ _]/(g (GaugeModel.down L d x) *m U d (GaugeModel.down L d x) *m dg (g x)).
move: g1; move: (g (GaugeModel.down L d x)) (U d _) (algebra_matrix _ _) (g x) => h0 V A k g1.
rewrite !dg_mul dgK !mulmxA -(mulmxA _ (dg h0) h0) g1 mulmx1.
by rewrite -(mulmxA _ (dg h0) h0) g1 mulmx1.
Qed.

Lemma norm_trace (A : 'M[C]_n) : \sum_i \sum_j `|A i j| ^+ 2 = \tr (A *m dg A).
Proof.
apply: eq_bigr => i _; rewrite mxE; apply: eq_bigr => j _; by rewrite !mxE normCK.
Qed.

Lemma covariant_violation g U E E' : (forall y, on_lattice L y -> GaugeSpec.unitary CM (g y)) ->
  @transformed C n L g E E' -> total_violation L (transform CM L g U) E' = total_violation L U E.
Proof.
move=> Hg T; apply: sum_sites => x hx; rewrite (covariant_divergence U Hg T hx) !norm_trace; congr (_ * _).
have [_ g1] := unitary_dg (Hg _ hx); move: g1; move: (g x) (divergence _ _ _ _) => k D g1.
rewrite !dg_mul dgK !mulmxA -(mulmxA _ (dg k) k) g1 mulmx1.
by rewrite mxtrace_mulC !mulmxA g1 mul1mx.
Qed.
End Covariant.

(** ** The Cayley transform *)
Section Cayley.
Variables (C : numClosedFieldType) (n : nat).
Hypothesis n0 : (0 < n)%N.
Notation CM := (complex_matrices C n).
Notation Ex := (@algebra_matrix C n).

Lemma conjT m p (v : 'M[C]_(m, p)) : (map_mx conjC ((map_mx conjC v)^T))^T = v.
Proof. by apply/matrixP => i j; rewrite !mxE conjCK. Qed.

Lemma anti_unit (B : 'M[C]_n) : dg B = - B -> 1%:M - B \in unitmx.
Proof.
move=> H; rewrite unitmxE unitfE; apply/negP => /det0P [v v0 E].
have vB : v = v *m B by apply/eqP; rewrite -subr_eq0 -{1}(mulmx1 v) -mulmxBr E.
pose s := v *m (map_mx conjC v)^T.
have sdg : (map_mx conjC s)^T = s.
  by rewrite /s map_mxM trmx_mul conjT.
have s2 : s = v *m B *m (map_mx conjC v)^T by rewrite -vB.
have sN : (map_mx conjC s)^T = - s.
  rewrite {1}s2 map_mxM trmx_mul map_mxM trmx_mul conjT.
  by rewrite -/(dg B) H mulmxA mulmxN mulNmx -vB.
have s0 : s 0 0 = 0.
  have : s + s = 0 by rewrite {1}(etrans (esym sdg) sN) addNr.
  move/matrixP => /(_ 0 0); rewrite !mxE -mulr2n => /eqP; by rewrite mulrn_eq0 /= => /eqP.
move: v0; apply/negP; rewrite negbK; apply/eqP/matrixP => i j; rewrite ord1 [RHS]mxE.
move: s0; rewrite mxE => /eqP; rewrite psumr_eq0 => [|k _]; last by rewrite !mxE mul_conjC_ge0.
by move=> /allP /(_ j (mem_index_enum _)); rewrite !mxE /= mul_conjC_eq0 => /eqP.
Qed.

Definition cayley (a : nat -> C) : 'M[C]_n :=
  let B := 2%:R^-1 *: Ex a in (1%:M + B) *m invmx (1%:M - B).

Lemma dg1 : dg (1%:M : 'M[C]_n) = 1%:M.
Proof. by rewrite /dg map_mx1 trmx1. Qed.

Lemma commute_inv (A B : 'M[C]_n) : B \in unitmx -> A *m B = B *m A -> A *m invmx B = invmx B *m A.
Proof.
move=> u E; rewrite -[LHS](mul1mx _) -(mulVmx u) -!mulmxA; congr (_ *m _).
by rewrite mulmxA -E -mulmxA mulmxV // mulmx1.
Qed.

Lemma cayley_exponential : exponential cayley.
Proof.
move=> a R; rewrite /cayley; set B := 2%:R^-1 *: Ex a.
have [HA _] := Ex_anti n0 R.
have HB : dg B = - B.
  rewrite /dg /B map_mxZ linearZ /= -/(dg (Ex a)) HA scalerN.
  by congr (- (_ *: _)); rewrite fmorphV rmorph_nat.
have u := anti_unit HB.
have u' : 1%:M + B \in unitmx.
  have := @anti_unit (- B); rewrite opprK; apply.
  by rewrite /dg map_mxN linearN /= -/(dg B) HB ?opprK.
have cB : (1%:M + B) *m (1%:M - B) = (1%:M - B) *m (1%:M + B).
  have E1 : (1%:M + B) *m (1%:M - B) = 1%:M - B *m B by rewrite mulmxDl !mulmxBr !mul1mx !mulmx1 addrA subrK.
  have E2 : (1%:M - B) *m (1%:M + B) = 1%:M - B *m B by rewrite mulmxBl !mulmxDr !mulmx1 !mul1mx opprD addrA addrK.
  exact: (etrans E1 (esym E2)).
have c2 := commute_inv u cB.
have dinv : dg (invmx (1%:M - B)) = invmx (1%:M + B).
  have -> : invmx (1%:M + B) = dg (invmx (1%:M - B)) *m (1%:M + B) *m invmx (1%:M + B).
    have E1 : dg (invmx (1%:M - B)) *m (1%:M + B) = 1%:M.
      have -> : 1%:M + B = dg (1%:M - B) by rewrite /dg map_mxB linearB /= -!/(dg _) dg1 HB opprK.
      by rewrite -dg_mul mulmxV // dg1.
    by rewrite E1 mul1mx.
  by rewrite -mulmxA mulmxV // mulmx1.
have dB : dg (1%:M + B) = 1%:M - B by rewrite /dg map_mxD linearD /= -!/(dg _) dg1 HB.
split.
  have H : (1%:M + B) *m invmx (1%:M - B) *m dg ((1%:M + B) *m invmx (1%:M - B)) = 1%:M.
    rewrite dg_mul dinv dB c2 -!mulmxA (mulmxA (1%:M + B)) mulmxV // mul1mx mulVmx //.
  split; [exact: H|exact: (mulmx1C H)].
move=> A HAc.
have cA : A *m B = B *m A by rewrite /B -scalemxAr -scalemxAl HAc.
have E1 : A *m (1%:M + B) = (1%:M + B) *m A by rewrite mulmxDr mulmxDl mulmx1 mul1mx cA.
have E2 : A *m (1%:M - B) = (1%:M - B) *m A by rewrite mulmxBr mulmxBl mulmx1 mul1mx cA.
by rewrite mulmxA E1 -mulmxA (commute_inv u E2) mulmxA.
Qed.
End Cayley.
