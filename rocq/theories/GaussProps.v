(** C90: making the electric field satisfy Gauss' law.
    C91: the time evolution keeps Gauss' law. *)
Set Warnings "-notation-overridden,-ambiguous-paths".
From Coq Require Import ZArith List.
From mathcomp Require Import all_ssreflect all_algebra.
From Verif Require Import LinalgSpec AlgebraModel AlgebraSpec
  GaugeModel GaugeSpec GaugeMatrix GaugeProofs1 GaugeProofs2 MatrixSpec ForceModel ForceSpec
  ForceProofs1 ForceProofs2 ForceProofs3 ForceProofs4 ForceProofs5 ForceProofs10 GaussModel GaussSpec GaussProofs1 GaussProofs2
  GaussProofs3 GaussProofs4 GaussProofs5 GaussProofs6 GaussProofs7.
Set Implicit Arguments.
Unset Strict Implicit.
Unset Printing Implicit Defensive.
Import Order.TTheory GRing.Theory Num.Theory.
Local Open Scope ring_scope.

Notation two := (Zpos (xO xH)).

Section Props.
Variables (C : numClosedFieldType) (n : nat) (ex : (nat -> C) -> 'M[C]_n).
Notation CM := (complex_matrices C n).
Notation LM := (complex_linear C n).
Notation SU := (su_algebra C n).
Notation PG := (su_gauss ex).

(** ** C90 *)

(** get_gauss_violation gives the components of the covariant divergence of the
    electric field, and the measured total is the sum of their squares. *)
Theorem C90_violation : forall L U E, (0 < n)%N -> sizes L -> unitary_links L U -> real_momenta n L E ->
  (forall x, on_lattice L x ->
     real_components (n * n - 1) (get_gauss_violation CM SU PG L U E x) /\
     algebra_matrix n (get_gauss_violation CM SU PG L U E x) = divergence L U E x) /\
  total_squarenorm CM SU L (get_gauss_violation CM SU PG L U E) = total_violation L U E.
Proof.
move=> L U E n0 HL HU R; have RM := proj1 (realm_of n L E) R.
split; last exact: (measured ex n0 HL HU R).
move=> x hx; split=> [k hk|]; first by rewrite gauss_value; apply: (DV_real n0 U RM hx).
by rewrite -(divergenceE n0 HL HU RM hx); apply: Ex_ext => k _; apply: gauss_value.
Qed.

(** The total violation does not depend on the gauge. *)
Theorem C90_covariant : forall L U E E' g, sizes L ->
  (forall x, on_lattice L x -> GaugeSpec.unitary CM (g x)) -> @transformed C n L g E E' ->
  (forall x, on_lattice L x ->
     divergence L (transform CM L g U) E' x = g x *m divergence L U E x *m conjugate (g x)) /\
  total_violation L (transform CM L g U) E' = total_violation L U E.
Proof.
move=> L U E E' g HL Hg T; split; last exact: covariant_violation.
by move=> x hx; apply: covariant_divergence.
Qed.

(** One step, up to three dimensions: the violation does not grow.  The value
    that is returned is not the violation of the result: it is at most that
    of the field before the step, and the violation of the result is at most
    9/4 of it.  Components of the field without divergence are kept, and a
    field that satisfies Gauss' law is not changed. *)
Theorem C90_step : forall L U E E' viol, (0 < n)%N -> sizes L -> (length L <= 3)%N -> unitary_links L U ->
  real_momenta n L E -> degauss_step CM SU PG L U E = (E', viol) ->
  [/\ real_momenta n L E',
      total_violation L U E' <= total_violation L U E,
      viol * volume C L <= total_violation L U E,
      4%:R * total_violation L U E' <= 9%:R * (viol * volume C L) &
      (forall F, real_momenta n L F -> (forall x, on_lattice L x -> divergence L U F x = 0) ->
         product n L F E' = product n L F E) /\
      ((forall x, on_lattice L x -> divergence L U E x = 0) ->
         viol = 0 /\
         forall d x k, (d < length L)%N -> on_lattice L x -> (k < n * n - 1)%N -> E' d x k = E d x k)].
Proof.
move=> L U E E' viol n0 HL dim HU R S; have [R' T' _ V' W'] := step_facts n0 HL HU dim R S.
split; [exact: R'|exact: T'|exact: V'|exact: W'|split].
  by move=> F RF Z; apply: (step_kept n0 HL HU R RF Z S).
move=> Z; have [Q v0] := step_same n0 HL HU R Z S.
by split; [exact: v0|move=> d x k h hx hk; exact: (Q d h x k hx hk)].
Qed.

(** The loop ends: at most 10001 steps.  The violation is not larger than at the
    start, and if the loop did not run to its limit it is at most 9/4 of the
    wanted quality per site. *)
Theorem C90_degauss : forall L U E quality, (0 < n)%N -> sizes L -> (length L <= 3)%N -> unitary_links L U ->
  real_momenta n L E -> quality \is Num.real ->
  exists E' loop viol, degauss CM SU PG L U E quality = Some (E', loop, viol) /\
  [/\ real_momenta n L E', Z.le 1 (Z.of_nat loop) /\ Z.le (Z.of_nat loop) 10001,
      total_violation L U E' <= total_violation L U E,
      (Z.le (Z.of_nat loop) 10000 ->
         viol <= quality /\ 4%:R * total_violation L U E' <= 9%:R * (quality * volume C L)) &
      forall F, real_momenta n L F -> (forall x, on_lattice L x -> divergence L U F x = 0) ->
        product n L F E' = product n L F E].
Proof.
move=> L U E quality n0 HL dim HU R rq.
rewrite /degauss; set lm := Z.to_nat _.
have elm : Z.of_nat lm = Z.pow 10 4 by rewrite /lm Z2Nat.id.
move: lm elm => lm elm.
have [E' [loop [viol [H /andP [l1 l2] q [R' T' W' K']]]]] :=
  loop_facts ex n0 HL HU (loop_max := lm) (quality := quality) (fuel := lm) (loop := 0) dim R rq (add0n _).
exists E', loop, viol; split; [exact: H|split; [exact: R'| |exact: T'| |exact: K']].
  split; first by apply: (inj_le 1 loop); apply/ssrnat.leP.
  by move/ssrnat.leP: l2 => l2; have := inj_le _ _ l2; rewrite Nat2Z.inj_succ elm.
move=> hl; have V : viol <= quality.
  by apply: q; apply/ssrnat.leP; apply/Nat2Z.inj_le; rewrite elm.
split; first exact: V.
apply: le_trans W' _; apply: ler_wpmul2l; first exact: ler0n.
by apply: ler_wpmul2r => //; apply: ltW; apply: volume_gt0.
Qed.

Lemma cube (l : list Z) : (forall z, In z l -> z = two) -> sizes l /\ even_sizes l.
Proof.
by elim: l => [|z l IH] H; [split; constructor|]; have [S E] := IH (fun z h => H z (or_intror h));
  split; constructor=> //; rewrite (H z (or_introl erefl)).
Qed.

Lemma volume0 L : sizes L -> 0 < volume C L. Proof. exact: volume_gt0. Qed.

(** The comment "the real violation should be smaller than this" is wrong: the
    loop can end with a violation larger than the wanted quality. *)
Theorem C90_quality_refuted : (1 < n)%N ->
  exists L U E quality E' loop viol,
  [/\ sizes L, length L = 3%N, unitary_links L U, real_momenta n L E &
  [/\ quality \is Num.real, degauss CM SU PG L U E quality = Some (E', loop, viol), loop = 1%N, viol <= quality &
      viol * volume C L < total_violation L U E' /\ quality * volume C L < total_violation L U E']].
Proof.
move=> n1; pose L : list Z := [:: two; two; two].
have [HL HE] : sizes L /\ even_sizes L by apply: cube => z; do !(case=> [<- //|]).
have R : real_momenta n L (alternating (1 : C)) by apply/realm_of; apply: alternating_real; exact: real1.
case S : (degauss_step CM SU PG L (ones C n) (alternating 1)) => [E' viol].
have [V T] := step_alternating n1 HL HE S; move: V T.
have [s4 t2] := three_dim C (L := L) erefl.
move: s4 t2; move: (once L _) (once L _) => t s s4 t2 V T.
have s0 : 0 < s * s by apply: (square_gt0 (k := 4) (m := 1)).
have t1 : 1 < t * t by apply: (square_gt1 (k := 2) (m := 3)).
have V0 : 0 < viol.
  rewrite V mulrACA pmulr_rgt0 // -[length L]/3%N -natrM -natrM; exact: ltr0n.
have W : viol * volume C L < total_violation L (ones C n) E'.
  have -> : total_violation L (ones C n) E' = viol * volume C L * (t * t).
    rewrite T V; move: (2%:R * _) (volume C L) => p q.
    by rewrite [RHS]mulrAC; congr (_ * _); rewrite !mulrA [p * s * t * p]mulrAC [p * s * p * t * s]mulrAC.
  by rewrite ltr_pmulr // mulr_gt0 // volume0.
exists L, (ones C n), (alternating 1), viol, E', 1%N, viol; split=> //; first exact: ones_unitary.
split=> //; first exact: gtr0_real.
rewrite /degauss; case: (Z.to_nat 10000) => [|m]; cbn [degauss_loop]; rewrite S.
all: by rewrite -[greater _ _ _ _ _]/(viol < viol) ltxx.
Qed.

(** In four dimensions a step can make the violation larger. *)
Theorem C90_four_refuted : (1 < n)%N ->
  exists L U E E' viol,
  [/\ sizes L, length L = 4%N, unitary_links L U, real_momenta n L E &
      degauss_step CM SU PG L U E = (E', viol) /\ total_violation L U E < total_violation L U E'].
Proof.
move=> n1; pose L : list Z := [:: two; two; two; two].
have [HL HE] : sizes L /\ even_sizes L by apply: cube => z; do !(case=> [<- //|]).
have R : real_momenta n L (alternating (1 : C)) by apply/realm_of; apply: alternating_real; exact: real1.
case S : (degauss_step CM SU PG L (ones C n) (alternating 1)) => [E' viol].
exists L, (ones C n), (alternating 1), E', viol; split=> //; first exact: ones_unitary.
split=> //; have [V T] := step_alternating n1 HL HE S; rewrite (violation_alternating n1 HL HE (real1 _)).
have [s3 t3] := four_dim C (L := L) erefl.
rewrite T; move: s3 t3; move: (once L _) (once L _) => t s s3 t3.
have st : 9%:R * (s * t) = - (- 14%:R).
  rewrite -[9%N]/(3 * 3)%N natrM mulrACA s3 t3 mulrNN -natrM opprK; congr (_ %:R).
have H1 : 1 < s * t * (s * t).
  have := @square_gt1 C 9 14 (- (s * t)); rewrite mulrNN; apply=> //.
  by rewrite mulrN st !opprK.
rewrite mulr1; have -> : 2%:R * (length L)%:R * (s * t) * (2%:R * (length L)%:R * (s * t)) * volume C L
  = 2%:R * (length L)%:R * (2%:R * (length L)%:R) * volume C L * (s * t * (s * t)).
  move: (2%:R * _) (s * t) (volume C L) => p q v.
  rewrite mulrACA.
  exact: mulrAC.
rewrite ltr_pmulr // mulr_gt0 ?volume0 // -natrM -natrM; exact: ltr0n.
Qed.

(** A case with a violation: the field of the refutations. *)
Example C90_example : (1 < n)%N -> exists L U E,
  [/\ sizes L, (length L <= 3)%N, unitary_links L U, real_momenta n L E & 0 < @total_violation C n L U E].
Proof.
move=> n1; pose L : list Z := [:: two; two; two].
have [HL HE] : sizes L /\ even_sizes L by apply: cube => z; do !(case=> [<- //|]).
exists L, (ones C n), (alternating 1); split=> //; first exact: ones_unitary.
  by apply/realm_of; apply: alternating_real; exact: real1.
rewrite (violation_alternating n1 HL HE (real1 _)) mulr1 mulr_gt0 ?volume0 //.
rewrite -natrM -natrM; exact: ltr0n.
Qed.

(** ** C91 *)

(** The links: update_U keeps them unitary and does not change the divergence of
    the electric field. *)
Theorem C91_update_U : forall L U E delta, sizes L -> exponential ex -> unitary_links L U ->
  real_momenta n L E -> delta \is Num.real ->
  unitary_links L (update_U CM SU PG L U E delta) /\
  forall x, on_lattice L x -> divergence L (update_U CM SU PG L U E delta) E x = divergence L U E x.
Proof. by move=> L U E delta HL HX HU R rd; apply: update_U_facts. Qed.

(** The electric field: update_E does not change its divergence, in at least two
    dimensions. *)
Theorem C91_update_E : forall L U E delta, (0 < n)%N -> sizes L -> (1 < length L)%N -> unitary_links L U ->
  real_momenta n L E -> delta \is Num.real ->
  exists E', [/\ update_E CM SU PG L U E delta = Some E', real_momenta n L E' &
    forall x, on_lattice L x -> divergence L U E' x = divergence L U E x].
Proof. by move=> L U E delta n0 HL h1 HU R rd; apply: update_E_facts. Qed.

(** A trajectory: every measured violation is that of the fields at the start. *)
Theorem C91_trajectory : forall L U E dt trajlen measure_interval, (0 < n)%N -> sizes L -> (1 < length L)%N ->
  exponential ex -> unitary_links L U -> real_momenta n L E -> dt \is Num.real ->
  exists U' E' meas, do_trajectory CM LM SU PG L trajlen measure_interval dt U E = Some (U', E', meas) /\
  [/\ unitary_links L U', real_momenta n L E',
      (forall x, on_lattice L x -> divergence L U' E' x = divergence L U E x),
      length meas = (Nat.div (trajlen + measure_interval - 1) measure_interval).+1 &
      forall v, In v meas -> v = total_violation L U E].
Proof.
move=> L U E dt tl mi n0 HL h1 HX HU R rd.
have [U' [E' [meas [H [[HU' R' D] LEN HM]]]]] := trajectory_law n0 HL h1 HX tl mi rd HU R.
by exists U', E', meas; split; [exact: H|split; [exact: HU'|exact: R'|exact: D|exact: LEN|exact: HM]].
Qed.

(** After degauss, in two or three dimensions, all measured violations are
    within 9/4 of the wanted quality per site. *)
Theorem C91_after_degauss : forall L U E quality dt trajlen measure_interval, (0 < n)%N -> sizes L ->
  (1 < length L <= 3)%N -> exponential ex -> unitary_links L U -> real_momenta n L E ->
  quality \is Num.real -> dt \is Num.real ->
  exists E1 loop viol, degauss CM SU PG L U E quality = Some (E1, loop, viol) /\
  exists U' E' meas, do_trajectory CM LM SU PG L trajlen measure_interval dt U E1 = Some (U', E', meas) /\
  (Z.le (Z.of_nat loop) 10000 -> forall v, In v meas -> 4%:R * v <= 9%:R * (quality * volume C L)).
Proof.
move=> L U E q dt tl mi n0 HL /andP [h1 h3] HX HU R rq rd.
have [E1 [loop [viol [H [R1 _ _ Q _]]]]] := C90_degauss n0 HL h3 HU R rq.
exists E1, loop, viol; split; first exact: H.
have [U' [E' [meas [HT [_ _ _ _ HM]]]]] := C91_trajectory tl mi n0 HL h1 HX HU R1 rd.
exists U', E', meas; split; first exact: HT.
move=> hl v hv; rewrite (HM v hv); exact: (proj2 (Q hl)).
Qed.

(** In one dimension update_E reads a field that was never assigned. *)
Theorem C91_one_dimension : forall l U E delta, sizes [:: l] ->
  update_E CM SU PG [:: l] U E delta = None.
Proof.
move=> l U E delta HL; rewrite /update_E /directions; cbn [List.seq length fold_left update_E_dir].
have -> : staplesum CM [:: l] U (fun _ => None) 0 ALL = (fun _ => None) by [].
have -> : read_field CM [:: l] (fun _ => None) = None; last by [].
rewrite /read_field; have : (0 < size (sites [:: l]))%N by have := volume0 HL; rewrite ltr0n.
by case: (sites _).
Qed.
End Props.

(** A map with the properties of the exponential. *)
Example C91_example : forall (C : numClosedFieldType) n, (0 < n)%N -> exponential (@cayley C n).
Proof. exact: cayley_exponential. Qed.

Print Assumptions C90_violation.
Print Assumptions C90_covariant.
Print Assumptions C90_step.
Print Assumptions C90_degauss.
Print Assumptions C90_quality_refuted.
Print Assumptions C90_four_refuted.
Print Assumptions C91_update_U.
Print Assumptions C91_update_E.
Print Assumptions C91_trajectory.
Print Assumptions C91_after_degauss.
Print Assumptions C91_one_dimension.
