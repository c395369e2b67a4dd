(** C96: the force under stout smearing. *)
Set Warnings "-notation-overridden,-ambiguous-paths".
From Coq Require Import ZArith List.
From mathcomp Require Import all_ssreflect all_algebra.
From Verif Require Import LinalgSpec AlgebraModel AlgebraSpec
  GaugeModel GaugeSpec GaugeMatrix GaugeProofs1 GaugeProofs2 MatrixSpec ForceModel ForceSpec ForceProps
  ForceProofs1 ForceProofs4 ForceProofs5 ForceProofs7 GaussModel GaussSpec GaussProofs7 FlowModel FlowSpec FlowProofs1 FlowProofs9 FlowProps FlowstepSpec FlowstepProofs3 FlowstepProofs5
  StoutModel StoutSpec StoutProofs2 StoutProofs4 StoutProps StoutforceModel StoutforceSpec StoutforceProofs4 StoutforceProofs5 StoutforceProofs6.
Set Implicit Arguments.
Unset Strict Implicit.
Unset Printing Implicit Defensive.
Import Order.TTheory GRing.Theory Num.Theory.
Local Open Scope ring_scope.

Section Props.
Variables (C : numClosedFieldType) (n : nat).
(** The exponential function and the matrix of the traces with its derivatives. *)
Variables (ex : (nat -> C) -> 'M[C]_n) (dexp : (nat -> C) -> (nat -> C) -> 'M[C]_n).
Notation CM := (complex_matrices C n).
Notation LM := (complex_linear C n).
Notation SU := (su_algebra C n).
Notation PG := (su_gauss ex).
Notation smear_all L := (stout_smear_list CM SU PG L).
Notation smear L := (stout_smear CM SU PG L).
Notation smear_force L := (stout_smear_force CM LM SU PG L dexp).

(** Let the lists come from m steps of smearing of U, let K be c0 times the gradient
    of S at the smeared field, and let S' be S as a function of the field before the
    m steps.  The force that is returned is c0 times the gradient of S' at U,
    whatever the fields for the result and K1 held before. *)
Theorem C96_force : forall L U sl pl sl' pl' (K KS0 : moments C) (N0 : links C n) (S S' : links C n -> C) (c c0 : C) m,
  (0 < n)%N -> sizes L -> c \is Num.real -> matrix_exponential ex -> exponential_derivative ex dexp ->
  length sl = m.+1 -> smear_all L U sl pl c = Some (sl', pl') ->
  (forall W W', smeared_times L ex c m W W' -> S' W = S W') ->
  gradient_at L S (List.nth m sl' U) c0 K ->
  exists2 KS, smear_force L sl' pl' K KS0 N0 c = Some KS & gradient_at L S' U c0 KS.
Proof.
move=> L U sl pl sl' pl' K KS0 N0 S S' c c0 m n0 HL rc HX HD el E HS G.
have HQ a : real_components (n * n - 1) a -> ex a *m dg (ex a) = 1%:M by move=> Ra; exact: (HX.1 a Ra).1.1.
exact: (force_ok n0 HL HD HQ rc KS0 N0 el E HS G).
Qed.

Lemma times_same L (c : C) m (W X Y : links C n) : (0 < n)%N -> sizes L -> matrix_exponential ex ->
  smeared_times L ex c m W X -> smeared_times L ex c m W Y -> same_links L X Y.
Proof.
move=> n0 HL HX H1 H2; have d1 : dg (1%:M : 'M[C]_n) = 1%:M by exact: GaussProofs7.dg1.
have T (V : links C n) d x : transform CM L (fun _ => 1%:M) V d x = V d x.
  by rewrite -[LHS]/(1%:M *m V d x *m dg 1%:M) d1 mulmx1 mul1mx.
have S1 x : on_lattice L x -> special ((fun _ => 1%:M : 'M[C]_n) x).
  by move=> _; split; [split; rewrite -[LHS]/(_ *m _) -?[dagger _ _]/(dg _) d1 mulmx1|rewrite det1].
have I : in_gauge L (fun _ => 1%:M) W W by move=> d x _ _; rewrite T.
by move=> d x hd hx; rewrite (times_gauge HL S1 HX I H1 H2 hd hx) T.
Qed.

Lemma action_same L (X Y : links C n) : sizes L -> same_links L X Y -> measure_s_wplaq CM L Y = measure_s_wplaq CM L X.
Proof.
move=> HL H; rewrite !C85_action //; apply: big_In => p /in_map_iff [[d1 d2] [<- h]].
apply: sum_sites => x hx; congr (1 - 'Re (\tr _) / _); apply: (line_same HL H _ hx).
move: h; rewrite /pairs => /filter_In [/in_prod_iff [/in_seq [_ /ssrnat.ltP h1] /in_seq [_ /ssrnat.ltP h2]] _].
exact: (dims_plaq h1 h2).1.
Qed.

(** The plaquette action of the field smeared m times: its gradient comes from the
    force of the plaquette action at the smeared field. *)
Theorem C96_plaquette : forall L U sl pl sl' pl' stale (K KS0 : moments C) (N0 S T : links C n) (c eps : C) m,
  (0 < n)%N -> sizes L -> (1 < length L)%N -> c \is Num.real -> eps \is Num.real ->
  matrix_exponential ex -> exponential_derivative ex dexp ->
  length sl = m.+1 -> smear_all L U sl pl c = Some (sl', pl') ->
  exists2 KS, smear_force L sl' pl' (get_force_wplaq CM SU L (List.nth m sl' U) stale K eps) KS0 N0 c = Some KS &
    gradient_at L (fun W => measure_s_wplaq CM L (smear L W S T c (Z.of_nat m))) U (- (2%:R * n%:R * eps)) KS.
Proof.
move=> L U sl pl sl' pl' stale K KS0 N0 S T c eps m n0 HL hL rc re HX HD el E.
apply: (@C96_force L U sl pl sl' pl' _ KS0 N0 (measure_s_wplaq CM L) _ c _ m) => //.
  move=> W W' H; apply: (action_same HL).
  have H2 := (@C95_smear C n ex L W S T c (Z.of_nat m) n0 HL rc).1 (Nat2Z.is_nonneg m).
  rewrite Nat2Z.id in H2; exact: (times_same n0 HL HX H H2).
exact: wplaq_gradient.
Qed.

(** With too few sums of staples there is an access out of range. *)
Theorem C96_range : forall L sl pl (K KS0 : moments C) (N0 : links C n) (c : C), ((length pl).+1 < length sl)%N ->
  smear_force L sl pl K KS0 N0 c = None.
Proof.
move=> L sl pl K KS0 N0 c h; rewrite /stout_smear_force.
case: sl h => [//|F [//|F' sl]] h; cbn [length]; rewrite [Nat.sub _ _]/=; cbn [force_loop].
have -> : nth_error pl (length sl) = None by apply/nth_error_None/ssrnat.leP.
by case: nth_error.
Qed.
End Props.
Print Assumptions C96_force.
Print Assumptions C96_plaquette.
Print Assumptions C96_range.

(** For SU(2) on 2 x 2 sites, with the Cayley transform, all hypotheses are met by
    two steps of smearing of a field with one link that differs from 1; K is the
    force of the plaquette action. *)
Example C96_example (C : numClosedFieldType) (F : links C 2) (K : moments C) (c : C) : c \is Num.real ->
  let L := square2 in let V := @one_link (complex_matrices C 2) (root1 C) in
  [/\ sizes L, matrix_exponential (@cayley C), exponential_derivative (@cayley C) (@cayley_dexp C),
      ForceSpec.algebra_part (plaquette_sum L V 0 origin) <> 0 &
  exists sl pl, [/\ stout_smear_list (complex_matrices C 2) (su_algebra C 2) (su_gauss (@cayley C)) L V [:: F; F; F] [:: F; F] c = Some (sl, pl),
      gradient_at L (measure_s_wplaq (complex_matrices C 2) L) (List.nth 2 sl V) (- (2%:R * 2%:R * 1))
        (get_force_wplaq (complex_matrices C 2) (su_algebra C 2) L (List.nth 2 sl V) (fun _ => 0) K 1) &
      smeared_times L (@cayley C) c 2 V (List.nth 2 sl V)]].
Proof.
move=> rc L V; have [HL HX _ _ NZ] := C95_example C.
split; [exact: HL|exact: HX|exact: cayley_derivative|exact: NZ|].
have [sl [pl [E _ _ H _]]] := (@C95_list C 2 (@cayley C) L V [:: F; F; F] [:: F; F] c (ltn0Sn 1) HL rc).1 isT isT.
exists sl, pl; split; [exact: E| |exact: (H 2%N isT)].
exact: (@wplaq_gradient C 2 L (ltn0Sn 1) HL (List.nth 2 sl V) (fun _ => 0) K 1 isT (real1 _)).
Qed.
