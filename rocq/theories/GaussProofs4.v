(** One step and the loop of degauss. *)
Set Warnings "-notation-overridden,-ambiguous-paths".
From Coq Require Import ZArith List.
From mathcomp Require Import all_ssreflect all_algebra.
From Verif Require Import LinalgSpec AlgebraModel AlgebraSpec
  GaugeModel GaugeSpec GaugeMatrix GaugeProofs1 MatrixSpec ForceModel ForceSpec
  ForceProofs1 ForceProofs2 ForceProofs3 ForceProofs4 ForceProofs5 ForceProofs10 GaussModel GaussSpec GaussProofs1 GaussProofs2
  GaussProofs3.
Set Implicit Arguments.
Unset Strict Implicit.
Unset Printing Implicit Defensive.
Import Order.TTheory GRing.Theory Num.Theory.
Local Open Scope ring_scope.

Section Step.
Variables (C : numClosedFieldType) (n : nat) (L : list Z) (ex : (nat -> C) -> 'M[C]_n).
Hypotheses (n0 : (0 < n)%N) (HL : sizes L).
Notation CM := (complex_matrices C n).
Notation SU := (su_algebra C n).
Notation PG := (su_gauss ex).
Notation N := (n * n - 1)%N.
Variable U : links C n.
Hypothesis HU : unitary_links L U.
Notation aleph := (5%:R / 4%:R / 12%:R : C).

Lemma aleph_ge0 : 0 <= aleph.
Proof. by rewrite !divr_ge0 ?ler0n. Qed.
Lemma aleph5 : 4%:R * (12%:R * aleph) = 5%:R.
Proof.
have h4 : 4%:R != 0 :> C by rewrite pnatr_eq0.
have h12 : 12%:R != 0 :> C by rewrite pnatr_eq0.
move: h4 h12; move: 4%:R 12%:R => p q h4 h12.
by rewrite (mulrC q) divfK // mulrC divfK.
Qed.
Lemma aleph_real : - aleph \is Num.real.
Proof. by rewrite rpredN ger0_real // aleph_ge0. Qed.

Definition fixed (E : moments C) (s : C) : moments C := fun d x k => E d x k + (- s) * DT L U (DV L U E) d x k.

Lemma fixed_of E s : eqm n L (gauss_fix_step CM SU PG L U E (get_gauss_violation CM SU PG L U E) s) (fixed E s).
Proof.
move=> d h x k hx hk; apply: (etrans (fix_eq ex U E _ s h hx hk)).
apply: (congr1 (fun z => E d x k + (- s) * z)).
by apply: (DT_ext HL U _ h hx hk) => y j _ _; apply: gauss_value.
Qed.

Lemma fixed_real E s : s \is Num.real -> realm n L E -> realm n L (fixed E s).
Proof.
move=> rs R; apply: combm_real => //; first by rewrite rpredN.
by apply: DT_real => //; apply: DV_real.
Qed.

Lemma DV_fixed E s : s \is Num.real ->
  eqf n L (DV L U (fixed E s)) (fun x k => DV L U E x k + (- s) * DV L U (DT L U (DV L U E)) x k).
Proof. by move=> rs; apply: DV_lin => //; rewrite rpredN. Qed.

Lemma aleph2_real : 2%:R * aleph \is Num.real.
Proof. by rewrite ger0_real // mulr_ge0 ?ler0n ?aleph_ge0. Qed.
Lemma aleph1_real : aleph \is Num.real.
Proof. by rewrite ger0_real // aleph_ge0. Qed.

Lemma DV_one E : eqf n L (DV L U (fixed E aleph)) (S1 L U aleph (DV L U E)).
Proof.
move=> x k hx hk; apply: (etrans (DV_fixed E aleph1_real hx hk)).
by rewrite /S1 /T; apply: (congr1 (fun z => _ + z)); rewrite mulN1r mulNr.
Qed.
Lemma DV_two E : eqf n L (DV L U (fixed E (2%:R * aleph))) (S2 L U aleph (DV L U E)).
Proof.
move=> x k hx hk; apply: (etrans (DV_fixed E aleph2_real hx hk)).
by rewrite /S2 /T; apply: (congr1 (fun z => _ + z)); rewrite !mulNr mulrA.
Qed.

Lemma S1_ext v w : eqf n L v w -> eqf n L (S1 L U aleph v) (S1 L U aleph w).
Proof.
move=> Q x k hx hk; apply: (f_equal2 (fun p q => p + (- 1) * q) (Q x k hx hk)).
exact: (T_ext HL U aleph Q hx hk).
Qed.
Lemma S2_ext v w : eqf n L v w -> eqf n L (S2 L U aleph v) (S2 L U aleph w).
Proof.
move=> Q x k hx hk; apply: (f_equal2 (fun p q => p + (- 2%:R) * q) (Q x k hx hk)).
exact: (T_ext HL U aleph Q hx hk).
Qed.
Lemma eqf_trans (u v w : site -> nat -> C) : eqf n L u v -> eqf n L v w -> eqf n L u w.
Proof. by move=> P Q x k hx hk; apply: (etrans (P x k hx hk)); apply: Q. Qed.
Lemma eqm_trans (u v w : moments C) : eqm n L u v -> eqm n L v w -> eqm n L u w.
Proof. by move=> P Q d h; apply: eqf_trans (P d h) (Q d h). Qed.

Definition twice (E : moments C) : moments C := fixed (fixed E aleph) (2%:R * aleph).

Lemma fixed_ext E F s : eqm n L E F -> eqm n L (fixed E s) (fixed F s).
Proof.
move=> Q d h x k hx hk; apply: (f_equal2 (fun p q => p + (- s) * q) (Q d h x k hx hk)).
exact: (DT_ext HL U (DV_ext HL U Q) h hx hk).
Qed.

Lemma DV_twice E : eqf n L (DV L U (twice E)) (S2 L U aleph (S1 L U aleph (DV L U E))).
Proof. by apply: eqf_trans (DV_two _) (S2_ext (DV_one E)). Qed.

Lemma step_value E : realm n L E -> exists E' viol,
  [/\ degauss_step CM SU PG L U E = (E', viol), eqm n L E' (twice E) &
      viol = ip n L (S1 L U aleph (DV L U E)) (S1 L U aleph (DV L U E)) / volume C L].
Proof.
move=> R; rewrite /degauss_step.
set E1 := gauss_fix_step CM SU PG L U E _ _.
have Q1 : eqm n L E1 (fixed E aleph) := fixed_of E aleph.
move: E1 Q1 => E1 Q1.
match goal with |- context [gauss_fix_step _ _ _ _ _ E1 (get_gauss_violation _ _ _ _ _ E1) _] => idtac end.
set E2 := gauss_fix_step CM SU PG L U E1 _ _.
have Q2 : eqm n L E2 (fixed E1 (2%:R * aleph)) := fixed_of E1 (2%:R * aleph).
exists E2; eexists; split; [reflexivity|exact: (eqm_trans Q2 (fixed_ext _ Q1))|].
have R1 : realm n L (fixed E aleph) := fixed_real aleph1_real R.
have G1 : eqf n L (get_gauss_violation CM SU PG L U E1) (S1 L U aleph (DV L U E)).
  move=> x k hx hk; rewrite gauss_value.
  by apply: (etrans (DV_ext HL U Q1 hx hk)); apply: DV_one.
rewrite norm_value; last first.
  apply: (eqf_real G1); apply: S1_real; [exact: n0|exact: aleph_ge0|exact: (DV_real n0 U R)].
by rewrite (ip_ext G1 G1) -(volumeE C HL).
Qed.

Lemma volume_neq0 : volume C L != 0.
Proof. exact: (lt0r_neq0 (volume_gt0 C HL)). Qed.
Lemma norm_real (v : site -> nat -> C) : realf n L v -> ip n L v v / volume C L \is Num.real.
Proof.
by move=> R; rewrite rpredM ?realV; [|exact: (ger0_real (ip_ge0 R))|exact: (gtr0_real (volume_gt0 C HL))].
Qed.

(** What is orthogonal to the corrections. *)
Lemma twice_product E F : realm n L E -> realm n L F -> eqf n L (DV L U F) (fun _ _ => 0) ->
  ip1 n L F (twice E) = ip1 n L F E.
Proof.
move=> RE RF Z.
have H G s : realm n L G -> ip1 n L F (fixed G s) = ip1 n L F G.
  move=> RG; apply: (etrans (ip1_linr n L G (DT L U (DV L U G)) F (- s))).
  have -> : ip1 n L F (DT L U (DV L U G)) = 0; last by rewrite mulr0 addr0.
  rewrite -(adjoint_DV n0 HL U RF (DV_real n0 U RG)).
  apply: (etrans (ip_ext Z (fun x k _ _ => erefl (DV L U G x k)))).
  by rewrite /ip big1 // => x _; rewrite /dot big1 // => k _; rewrite mul0r.
by rewrite /twice (H _ _ (fixed_real aleph1_real RE)) (H _ _ RE).
Qed.

(** Nothing is changed where there is no violation. *)
Lemma twice_zero E : realm n L E -> eqf n L (DV L U E) (fun _ _ => 0) -> eqm n L (twice E) E.
Proof.
move=> R Z.
have H G s : eqf n L (DV L U G) (fun _ _ => 0) -> eqm n L (fixed G s) G.
  move=> ZG d h x k hx hk; rewrite /fixed (DT_ext HL U ZG h hx hk) /DT sub0r.
  rewrite /push Ex0 mulmx0 mul0mx -Ex0 toalg_Ex //; last by move=> j _; exact: real0.
  by rewrite oppr0 mulr0 addr0.
have Z1 : eqf n L (DV L U (fixed E aleph)) (fun _ _ => 0).
  exact: (eqf_trans (DV_ext HL U (H E aleph Z)) Z).
exact: (eqm_trans (H _ _ Z1) (H E aleph Z)).
Qed.

Lemma twice_real E : realm n L E -> realm n L (twice E).
Proof. by move=> R; apply: (fixed_real aleph2_real); apply: (fixed_real aleph1_real). Qed.

Lemma tv_ext E F : realm n L F -> eqm n L E F -> total_violation L U E = total_violation L U F.
Proof.
move=> R Q; rewrite (violationE n0 HL HU R) (violationE n0 HL HU (eqm_real Q R)).
by apply: ip_ext; apply: (DV_ext HL U Q).
Qed.

Lemma step_facts E E' viol : (length L <= 3)%N -> real_momenta n L E ->
  degauss_step CM SU PG L U E = (E', viol) ->
  [/\ real_momenta n L E', total_violation L U E' <= total_violation L U E,
      viol \is Num.real, viol * volume C L <= total_violation L U E &
      4%:R * total_violation L U E' <= 9%:R * (viol * volume C L)].
Proof.
move=> dim /realm_of R S; have [E2 [viol2 []]] := step_value R; rewrite S => - [<- <-] Q V.
have RT := twice_real R; have RV := DV_real n0 U R.
have R1 := S1_real n0 U aleph_ge0 RV.
have TV : total_violation L U E' = ip n L (S2 L U aleph (S1 L U aleph (DV L U E))) (S2 L U aleph (S1 L U aleph (DV L U E))).
  by rewrite (tv_ext RT Q) (violationE n0 HL HU RT) (ip_ext (DV_twice E) (DV_twice E)).
have VV : viol * volume C L = ip n L (S1 L U aleph (DV L U E)) (S1 L U aleph (DV L U E)).
  rewrite V; exact: (divfK volume_neq0 _).
rewrite VV TV (violationE n0 HL HU R); split.
- by apply/realm_of; apply: eqm_real Q RT.
- exact: (S12_norm n0 HL HU dim aleph_ge0 aleph5 RV).
- rewrite V; exact: (norm_real R1).
- exact: (S1_norm n0 HL HU dim aleph_ge0 aleph5 RV).
exact: (S2_norm n0 HL HU dim aleph_ge0 aleph5 R1).
Qed.

Lemma step_kept E E' viol F : real_momenta n L E -> real_momenta n L F ->
  (forall x, on_lattice L x -> divergence L U F x = 0) ->
  degauss_step CM SU PG L U E = (E', viol) -> product n L F E' = product n L F E.
Proof.
move=> /realm_of R /realm_of RF /(divergence_zero n0 HL HU RF) Z S.
have [E2 [viol2 []]] := step_value R; rewrite S => - [<- _] Q _.
rewrite -[LHS]/(ip1 n L F E') -[RHS]/(ip1 n L F E) -(twice_product R RF Z).
by apply: ip1_ext => // d h x k.
Qed.

Lemma step_same E E' viol : real_momenta n L E ->
  (forall x, on_lattice L x -> divergence L U E x = 0) ->
  degauss_step CM SU PG L U E = (E', viol) -> eqm n L E' E /\ viol = 0.
Proof.
move=> /realm_of R /(divergence_zero n0 HL HU R) Z S.
have [E2 [viol2 []]] := step_value R; rewrite S => - [<- <-] Q ->; split.
  exact: (eqm_trans Q (twice_zero R Z)).
have Z1 : eqf n L (S1 L U aleph (DV L U E)) (fun _ _ => 0).
  move=> x k hx hk; rewrite -(DV_one E hx hk) -[RHS](Z x k hx hk).
  apply: (DV_ext HL U _ hx hk) => d h y j hy hj.
  rewrite /fixed (DT_ext HL U Z h hy hj) /DT sub0r /push Ex0 mulmx0 mul0mx -Ex0 toalg_Ex //.
    by rewrite oppr0 mulr0 addr0.
  by move=> i _; exact: real0.
rewrite (ip_ext Z1 Z1) /ip big1 ?mul0r // => x _; rewrite /dot big1 // => k _; by rewrite mul0r.
Qed.

(** ** The loop *)

Lemma loop_facts loop_max quality fuel loop E : (length L <= 3)%N -> real_momenta n L E ->
  quality \is Num.real -> (loop + fuel)%N = loop_max ->
  exists E' loop' viol,
  [/\ degauss_loop CM SU PG L loop_max fuel U quality loop E = Some (E', loop', viol),
      (loop < loop' <= loop_max.+1)%N, ((loop' <= loop_max)%N -> viol <= quality) &
  [/\ real_momenta n L E', total_violation L U E' <= total_violation L U E, 
      4%:R * total_violation L U E' <= 9%:R * (viol * volume C L) &
      forall F, real_momenta n L F -> (forall x, on_lattice L x -> divergence L U F x = 0) ->
        product n L F E' = product n L F E]].
Proof.
move=> dim R rq; elim: fuel loop E R => [|fuel IH] loop E R HF; cbn [degauss_loop].
all: case S: (degauss_step CM SU PG L U E) => [E1 viol].
all: have [R1 T1 rv V1 W1] := step_facts dim R S.
all: have K1 F (RF : real_momenta n L F) (Z : forall x, on_lattice L x -> divergence L U F x = 0) : product n L F E1 = product n L F E := step_kept R RF Z S.
all: rewrite -[greater _ _ _ _ _]/(quality < viol).
all: have B1 : [/\ real_momenta n L E1, total_violation L U E1 <= total_violation L U E,
      4%:R * total_violation L U E1 <= 9%:R * (viol * volume C L) &
      forall F, real_momenta n L F -> (forall x, on_lattice L x -> divergence L U F x = 0) ->
        product n L F E1 = product n L F E] by split; [exact: R1|exact: T1|exact: W1|exact: K1].
- have -> : Nat.leb loop.+1 loop_max = false.
    by apply/negP => /PeanoNat.Nat.leb_le /ssrnat.leP; rewrite -HF addn0 ltnn.
  rewrite andbF; exists E1, loop.+1, viol; split; [reflexivity| | |exact: B1].
  - by rewrite ltnSn -HF addn0 leqnn.
  - by rewrite -HF addn0 ltnn.
have HL1 : (loop.+1 <= loop_max)%N by rewrite -HF -addSnnS leq_addr.
have -> : Nat.leb loop.+1 loop_max = true by apply/PeanoNat.Nat.leb_le/ssrnat.leP.
rewrite andbT; case: ifP => [G|/negbT G].
  have HF1 : (loop.+1 + fuel)%N = loop_max by rewrite addSnnS.
  have [E' [l' [v' [S' /andP [P' B'] q' [R' T' W' K']]]]] := IH loop.+1 E1 R1 HF1.
  exists E', l', v'; split; [exact: S'| |exact: q'|split; [exact: R'| |exact: W'|]].
  - by rewrite B' andbT; apply: ltnW.
  - exact: le_trans T' T1.
  move=> F RF Z; exact: (etrans (K' F RF Z) (K1 F RF Z)).
exists E1, loop.+1, viol; split; [reflexivity| | |exact: B1].
- by rewrite ltnSn ltnW.
by move=> _; rewrite real_leNgt.
Qed.
End Step.
