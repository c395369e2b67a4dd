(** The update of the momenta. *)
Set Warnings "-notation-overridden,-ambiguous-paths".
From Coq Require Import ZArith List.
From mathcomp Require Import all_ssreflect all_fingroup all_algebra.
From Verif Require Import LinalgSpec FieldTac AlgebraModel AlgebraSpec
  GaugeModel GaugeSpec GaugeMatrix GaugeProofs1 GaugeProofs2 MatrixSpec ForceModel ForceSpec ForceProps
  ForceProofs1 ForceProofs2 ForceProofs3 ForceProofs4 ForceProofs5 ForceProofs7 ForceProofs10
  GaussModel GaussSpec GaussProofs1 GaussProofs2 FlowSpec FlowProofs1 FlowstepSpec
  StoutModel StoutSpec StoutProofs1 StoutProofs2 StoutProps StoutforceModel StoutforceSpec
  StoutforceProofs1 StoutforceProofs5 StoutforceProps StoutkModel StoutkProofs1.
Set Implicit Arguments.
Unset Strict Implicit.
Unset Printing Implicit Defensive.
Import Order.TTheory GRing.Theory Num.Theory.
Local Open Scope ring_scope.

Section Update.
Variables (C : numClosedFieldType) (n : nat) (L : list Z) (ex kexp : (nat -> C) -> 'M[C]_n).
Variable fast : (nat -> C) -> 'M[C]_n -> 'M[C]_n -> (nat -> C) -> 'M[C]_n.
Hypotheses (n0 : (0 < n)%N) (HL : sizes L).
Notation CM := (complex_matrices C n).
Notation LM := (complex_linear C n).
Notation SU := (su_algebra C n).
Notation PG := (su_gauss ex).
Notation prod := (product n L).
Notation real := (real_momenta n L).
Hypothesis HX : matrix_exponential ex.
Hypothesis HE : exponential_derivative ex (fun a k => fast a (ex a) (kexp a) k).
Variable c : C.
Hypothesis cr : c \is Num.real.

Lemma set_fold (f : nat -> site -> nat -> C) l (K : moments C) d x :
  fold_left (fun K d1 => set_dir CM SU K d1 (fun x => f d1 x)) l K d x = if d \in l then f d x else K d x.
Proof.
elim: l K => [//|d1 l IH] K /=; rewrite IH set_dirE in_cons.
by case: (d \in l); rewrite ?orbT ?orbF //; case: eqP => [->|].
Qed.

Lemma add_fold (KS : moments C) l (E : moments C) d x : uniq l ->
  fold_left (fun E d1 => set_dir CM SU E d1 (fun x => aadd CM SU (E d1 x) (KS d1 x))) l E d x
    = if d \in l then (aadd CM SU (E d x) (KS d x) : nat -> C) else E d x.
Proof.
elim: l E => [//|d1 l IH] E /= /andP [nl ul].
rewrite (IH _ ul) set_dirE in_cons; case: (boolP (d \in l)) => hl.
  by have -> : (d == d1) = false by apply/negP => /eqP e; rewrite -e hl in nl.
by rewrite orbF; case: eqP => [->|].
Qed.

Lemma update_ok f m (U : links C n) (E : moments C) f0 K10 tE0 KS0 (S S' : links C n -> C) c0 : special_links L U ->
  (forall W W', smeared_times L ex c m W W' -> S' W = S W') ->
  (forall tU (tE : moments C), special_links L tU -> (forall d x, (d < length L)%N -> tE d x = (fun _ => 0)) ->
     gradient_at L S tU c0 (f tU tE)) ->
  exists E' KS, [/\ update_E_stout CM LM SU PG L kexp fast f m c f0 K10 tE0 KS0 U E = Some E',
    gradient_at L S' U c0 KS & forall d x k, (d < length L)%N -> E' d x k - E d x k = KS d x k].
Proof.
move=> HU HS HF; rewrite /update_E_stout.
have e1 : length (repeat f0 (Nat.add m 1)) = m.+1 by rewrite repeat_length; exact: Nat.add_1_r.
have e2 : (m <= length (repeat f0 m))%N by rewrite repeat_length.
have [sl [pl [kl [E1 el H]]]] := @smeark_ok C n L ex kexp n0 HL c cr U _ _ _ m e1 e2 e2.
rewrite E1; have [tU e3 HtU] := H m (leqnn m); rewrite e3.
set tE := fold_left _ _ tE0.
have Z d x : (d < length L)%N -> tE d x = (fun _ => 0).
  by move=> hd; rewrite /tE (@set_fold (fun _ _ _ => 0)) in_directions hd.
have G := HF tU tE (times_special HX HU HtU) Z.
have eN : List.nth m sl U = tU by exact: List.nth_error_nth.
rewrite -[X in gradient_at _ _ X _ _]eN in G.
have [KS E2 G2] := forcek_ok n0 HL HX HE cr KS0 K10 HU e1 E1 HS G.
rewrite E2; eexists; exists KS; split; [reflexivity|exact: G2|].
move=> d x k hd; rewrite add_fold ?in_directions ?hd; last exact: uniq_directions.
by rewrite -[aadd CM SU _ _]/(fun k => E d x k + KS d x k) addrC addKr.
Qed.

Lemma update_energy f m (U : C -> links C n) V (E : moments C) f0 K10 tE0 KS0 (S : links C n -> C) tU0 tmp0 beta : special_links L V ->
  (forall X Y, same_links L X Y -> S Y = S X) ->
  (forall tU (tE : moments C), special_links L tU -> (forall d x, (d < length L)%N -> tE d x = (fun _ => 0)) ->
     gradient_at L S tU (- (2%:R * beta)) (f tU tE)) ->
  real E -> links_move L U V E ->
  exists2 E', update_E_stout CM LM SU PG L kexp fast f m c f0 K10 tE0 KS0 V E = Some E' &
    forall P, momenta_move n L P E E' ->
    derivative (fun t => measure_action CM LM SU L beta (measure_s_stout CM SU PG L S m c tU0 tmp0 (U t)) (P t))
      (measure_action CM LM SU L beta (measure_s_stout CM SU PG L S m c tU0 tmp0 V) E) 0.
Proof.
move=> HV HS HF RE HU.
have HS' W W' : smeared_times L ex c m W W' -> measure_s_stout CM SU PG L S m c tU0 tmp0 W = S W'.
  move=> H; apply: HS.
  have H2 := (@C95_smear C n ex L W tU0 tmp0 c (Z.of_nat m) n0 HL cr).1 (Nat2Z.is_nonneg m).
  rewrite Nat2Z.id in H2; exact: (times_same n0 HL HX H H2).
have [E' [KS [E1 [_ G] HE']]] := update_ok E f0 K10 tE0 KS0 HV HS' HF.
exists E' => // P HP; have [D HD e] := G U E RE HU.
apply: (energy RE HP HD); rewrite -mulNr -e.
apply: big_In => d /in_seq [_ /ssrnat.ltP hd]; apply: eq_bigr => x _; apply: eq_bigr => k _; by rewrite HE'.
Qed.

(** ** The plaquette action *)
Lemma work_zero (E tE K : moments C) : (forall d x, (d < length L)%N -> tE d x = (fun _ => 0)) -> work n L E tE K = prod E K.
Proof.
move=> Z; apply: big_In => d /in_seq [_ /ssrnat.ltP hd]; apply: eq_bigr => x _; apply: eq_bigr => k _.
by rewrite Z // subr0.
Qed.

Lemma twice_n (beta : C) : 2%:R * n%:R * (beta / n%:R) = 2%:R * beta.
Proof. by rewrite -mulrA [n%:R * _]mulrC divfK // pnatr_eq0 -lt0n. Qed.

Lemma wplaq_real (V : links C n) : measure_s_wplaq CM L V \is Num.real.
Proof.
rewrite C85_action //; apply: rpred_sum => p _; apply: rpred_sum => x _.
by rewrite realB ?real1 // realM ?realV ?realn // Creal_Re.
Qed.

Lemma gradient_is (S : links C n -> C) K V c0 : (forall U, S U \is Num.real) -> c0 \is Num.real ->
  (forall U E, real E -> links_move L U V E ->
     exists2 D, derivative (fun t => S (U t)) (S V) D & prod E K = c0 * D) -> gradient_at L S V c0 K.
Proof. by move=> H1 H2 H3; exact: (gradient_real H1 H2 H3). Qed.

Lemma wplaq_add V (tE : moments C) stale beta : (1 < length L)%N -> beta \is Num.real ->
  (forall d x, (d < length L)%N -> tE d x = (fun _ => 0)) ->
  gradient_at L (measure_s_wplaq CM L) V (- (2%:R * beta)) (get_force_wplaq_add CM SU L V stale tE (over_n CM LM beta)).
Proof.
move=> hL rb Z; apply: gradient_is => [W||U E RE H]; first exact: wplaq_real.
  by rewrite rpredN realM ?realn.
have [D [HD W]] := C85_force n0 HL hL RE H; exists D; first exact: HD.
rewrite -(work_zero E _ Z) (W stale tE _).1 mulNr; congr (- (_ * _)); exact: twice_n.
Qed.

Lemma impr_add V (tE : moments C) stale beta c11 c12 : (1 < length L)%N -> beta \is Num.real -> c11 \is Num.real -> c12 \is Num.real ->
  unitary_links L V -> (forall d x, (d < length L)%N -> tE d x = (fun _ => 0)) ->
  gradient_at L (fun U => measure_s_impr CM LM L U c11 c12) V (- (2%:R * beta))
    (get_force_impr_add CM SU L V stale tE (rmul CM LM (over_n CM LM beta) c11) (rmul CM LM (over_n CM LM beta) c12)).
Proof.
move=> hL rb r1 r2 HV Z; apply: gradient_is => [W||U E RE H]; first exact: impr_real.
  by rewrite rpredN realM ?realn.
have [D [HD W]] := C87_force c11 c12 n0 HL hL RE H HV; exists D; first exact: HD.
rewrite -(work_zero E _ Z) mulNr; apply: etrans (W stale tE (beta / n%:R)).1 _; congr (- (_ * _)); exact: twice_n.
Qed.

Lemma impr_same c11 c12 (X Y : links C n) : same_links L X Y -> measure_s_impr CM LM L Y c11 c12 = measure_s_impr CM LM L X c11 c12.
Proof.
move=> H; rewrite /measure_s_impr; apply: fold_left_ext_In => s [d1 d2] /in_prod_iff [/in_seq [_ /ssrnat.ltP h1] /in_seq [_ /ssrnat.ltP h2]].
case: Nat.ltb => //; cbv zeta.
pose tP (V : links C n) x : 'M[C]_n := V d1 x *m V d2 (up L d1 x) *m dg (V d2 x *m V d1 (up L d2 x)).
have E x : on_lattice L x -> tP Y x = tP X x.
  move=> hx; have hu1 := up_on L d1 x HL hx; have hu2 := up_on L d2 x HL hx.
  by rewrite /tP (H d1 x h1 hx) (H d2 x h2 hx) (H d2 _ h2 hu1) (H d1 _ h1 hu2).
have -> : fold_left (fun s x => radd CM s (rmul CM LM c11 (one_minus_over_n CM (GaugeModel.real CM (trace CM (tP Y x)))))) (sites L) s
   = fold_left (fun s x => radd CM s (rmul CM LM c11 (one_minus_over_n CM (GaugeModel.real CM (trace CM (tP X x)))))) (sites L) s.
  by apply: fold_left_ext_In => s2 x /sites_In hx; rewrite (E x hx).
apply: fold_left_ext_In => s' x /sites_In hx.
have hu1 := up_on L d1 x HL hx; have hu2 := up_on L d2 x HL hx.
rewrite -![mul CM (mul CM _ _) (dagger CM (mul CM _ _))]/(tP _ _).
by rewrite (E x hx) (E _ hu1) (E _ hu2) (H d1 x h1 hx) (H d2 x h2 hx).
Qed.
End Update.
