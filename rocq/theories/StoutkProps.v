(** C97: stout smearing and its force in HMC. *)
Set Warnings "-notation-overridden,-ambiguous-paths".
From Coq Require Import ZArith List.
From mathcomp Require Import all_ssreflect all_algebra.
From Verif Require Import LinalgSpec AlgebraModel AlgebraSpec
  GaugeModel GaugeSpec GaugeMatrix GaugeProofs1 GaugeProofs2 MatrixSpec ForceModel ForceSpec ForceProps
  ForceProofs1 ForceProofs4 ForceProofs5 ForceProofs7 GaussModel GaussSpec GaussProofs7 FlowModel FlowSpec FlowProofs1 FlowProofs9 FlowProps FlowstepSpec FlowstepProofs3 FlowstepProofs5
  StoutModel StoutSpec StoutProofs2 StoutProofs4 StoutProps StoutforceModel StoutforceSpec StoutforceProofs4 StoutforceProofs5 StoutforceProofs6 StoutforceProps
  StoutkModel StoutkProofs1 StoutkProofs2.
Set Implicit Arguments.
Unset Strict Implicit.
Unset Printing Implicit Defensive.
Import Order.TTheory GRing.Theory Num.Theory.
Local Open Scope ring_scope.

Section Props.
Variables (C : numClosedFieldType) (n : nat).
(** The exponential, what chexpk keeps, and what mult_chexpk_fast makes of it. *)
Variables (ex kexp : (nat -> C) -> 'M[C]_n) (fast : (nat -> C) -> 'M[C]_n -> 'M[C]_n -> (nat -> C) -> 'M[C]_n).
Notation CM := (complex_matrices C n).
Notation LM := (complex_linear C n).
Notation SU := (su_algebra C n).
Notation PG := (su_gauss ex).
Notation smear L := (stout_smeark CM SU PG L kexp).
Notation smear_force L := (stout_smeark_force CM LM SU PG L fast).
(** Given the exponential and what was kept, mult_chexpk_fast returns the traces with
    the derivatives of the exponential. *)
Notation exponential := (matrix_exponential ex).
Notation kept_derivative := (exponential_derivative ex (fun a k => fast a (ex a) (kexp a) k)).

(** With m + 1 fields and at least m fields of staples and coefficients, the i-th
    field is U smeared i times, and nothing is accessed out of range. *)
Theorem C97_smear : forall L U sl pl kl (c : C) m, (0 < n)%N -> sizes L -> c \is Num.real ->
  length sl = m.+1 -> (m <= length pl)%N -> (m <= length kl)%N ->
  exists sl' pl' kl', [/\ smear L U sl pl kl c = Some (sl', pl', kl'), length sl' = m.+1 &
    forall i, (i <= m)%N -> exists2 F, nth_error sl' i = Some F & smeared_times L ex c i U F].
Proof. by move=> L U sl pl kl c m n0 HL rc; exact: smeark_ok. Qed.

(** Let the lists come from m steps of smearing of U, let K be c0 times the gradient
    of S at the smeared field, and let S' be S as a function of the field before the
    m steps.  The force that is returned is c0 times the gradient of S' at U. *)
Theorem C97_force : forall L U sl pl kl sl' pl' kl' (K KS0 : moments C) (N0 : links C n) (S S' : links C n -> C) (c c0 : C) m,
  (0 < n)%N -> sizes L -> c \is Num.real -> exponential -> kept_derivative -> special_links L U ->
  length sl = m.+1 -> smear L U sl pl kl c = Some (sl', pl', kl') ->
  (forall W W', smeared_times L ex c m W W' -> S' W = S W') ->
  gradient_at L S (List.nth m sl' U) c0 K ->
  exists2 KS, smear_force L sl' pl' kl' K KS0 N0 c = Some KS & gradient_at L S' U c0 KS.
Proof.
move=> L U sl pl kl sl' pl' kl' K KS0 N0 S S' c c0 m n0 HL rc HX HD HU el E HS G.
exact: (forcek_ok n0 HL HX HD rc KS0 N0 HU el E HS G).
Qed.

(** The energy of the molecular dynamics with the action of the field smeared m times
    is constant to first order: the links have the velocity E V and the momenta the
    velocity that update_E gives.  What new fields hold does not matter. *)
Theorem C97_energy : forall L (U : C -> links C n) V (E : moments C) m f0 K10 tE0 KS0 stale tU0 tmp0 (c beta : C),
  (0 < n)%N -> sizes L -> (1 < length L)%N -> c \is Num.real -> beta \is Num.real -> exponential -> kept_derivative ->
  special_links L V -> real_momenta n L E -> links_move L U V E ->
  let s := measure_s_stout CM SU PG L (measure_s_wplaq CM L) m c tU0 tmp0 in
  exists2 E', update_E_stout_wplaq CM LM SU PG L kexp fast m c f0 K10 tE0 KS0 stale V E beta = Some E' &
    forall P, momenta_move n L P E E' ->
    derivative (fun t => measure_action CM LM SU L beta (s (U t)) (P t)) (measure_action CM LM SU L beta (s V) E) 0.
Proof.
move=> L U V E m f0 K10 tE0 KS0 stale tU0 tmp0 c beta n0 HL hL rc rb HX HD HV RE HU s.
apply: (@update_energy C n L ex kexp fast n0 HL HX HD c rc
  (fun U E => get_force_wplaq_add CM SU L U stale E (over_n CM LM beta))
  m U V E f0 K10 tE0 KS0 (measure_s_wplaq CM L) tU0 tmp0 beta HV _ _ RE HU) => [X Y|tU tE _ Z].
  exact: action_same.
exact: wplaq_add.
Qed.

(** The same with the improved actions. *)
Theorem C97_energy_impr : forall L (U : C -> links C n) V (E : moments C) m f0 K10 tE0 KS0 stale tU0 tmp0 (c c11 c12 beta : C),
  (0 < n)%N -> sizes L -> (1 < length L)%N -> c \is Num.real -> c11 \is Num.real -> c12 \is Num.real -> beta \is Num.real ->
  exponential -> kept_derivative -> special_links L V -> real_momenta n L E -> links_move L U V E ->
  let s := measure_s_stout CM SU PG L (fun U => measure_s_impr CM LM L U c11 c12) m c tU0 tmp0 in
  exists2 E', update_E_stout_impr CM LM SU PG L kexp fast m c f0 K10 tE0 KS0 stale c11 c12 V E beta = Some E' &
    forall P, momenta_move n L P E E' ->
    derivative (fun t => measure_action CM LM SU L beta (s (U t)) (P t)) (measure_action CM LM SU L beta (s V) E) 0.
Proof.
move=> L U V E m f0 K10 tE0 KS0 stale tU0 tmp0 c c11 c12 beta n0 HL hL rc r1 r2 rb HX HD HV RE HU s.
apply: (@update_energy C n L ex kexp fast n0 HL HX HD c rc
  (fun U E => get_force_impr_add CM SU L U stale E (rmul CM LM (over_n CM LM beta) c11) (rmul CM LM (over_n CM LM beta) c12))
  m U V E f0 K10 tE0 KS0 (fun U => measure_s_impr CM LM L U c11 c12) tU0 tmp0 beta HV _ _ RE HU) => [X Y|tU tE HtU Z].
  exact: impr_same.
by apply: impr_add => // d x hd hx; exact: (HtU d x hd hx).1.
Qed.
End Props.
Print Assumptions C97_smear.
Print Assumptions C97_force.
Print Assumptions C97_energy.
Print Assumptions C97_energy_impr.

(** For SU(2) on 2 x 2 sites, with the Cayley transform and the inverse of 1 - X/2 as
    what is kept, all hypotheses are met by a field with one link that differs from 1;
    its links move with any real momenta. *)
Definition cayley_fast (C : numClosedFieldType) (a : nat -> C) (Q k : 'M[C]_2) (K : nat -> C) : 'M[C]_2 :=
  k *m conjugate Q *m algebra_matrix 2 K *m k.
Example C97_example (C : numClosedFieldType) (E : moments C) : real_momenta 2 square2 E ->
  let L := square2 in let V := @one_link (complex_matrices C 2) (root1 C) in
  [/\ sizes L, matrix_exponential (@cayley C),
      exponential_derivative (@cayley C) (fun a k => @cayley_fast C a (cayley a) (resolvent a) k),
      special_links L V & ForceSpec.algebra_part (plaquette_sum L V 0 origin) <> 0 /\ exists U, links_move L U V E].
Proof.
move=> RE L V; have [HL HX _ SV NZ] := C95_example C.
split; [exact: HL|exact: HX|exact: cayley_derivative|exact: SV|split; first exact: NZ].
eexists; exact: curve_moves.
Qed.
