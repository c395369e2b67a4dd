(** Many steps of smearing; gauge transformations. *)
Set Warnings "-notation-overridden,-ambiguous-paths".
From Coq Require Import ZArith List Lia.
From mathcomp Require Import all_ssreflect all_fingroup all_algebra.
From Verif Require Import LinalgSpec FieldTac AlgebraModel AlgebraSpec AlgebraProofs2 AlgebraProofs4 AlgebraProofs5 AlgebraProps
  GaugeModel GaugeSpec GaugeMatrix GaugeProofs1 GaugeProofs2 MatrixSpec ForceModel ForceSpec
  ForceProofs1 ForceProofs2 ForceProofs3 ForceProofs4 ForceProofs5 ForceProofs7 ForceProofs10 ForceProps
  ForceProofs9 GaussModel GaussSpec GaussProofs1 GaussProofs2 GaussProofs3 GaussProofs4 GaussProofs6 GaussProofs7
  FlowModel FlowSpec FlowProofs1 FlowProofs2 FlowProofs7 FlowProofs8
  FlowstepSpec FlowstepProofs1 FlowstepProofs2 FlowstepProofs3 StoutModel StoutSpec StoutProofs0 StoutProofs1.
Set Implicit Arguments.
Unset Strict Implicit.
Unset Printing Implicit Defensive.
Import Order.TTheory GRing.Theory Num.Theory.
Local Open Scope ring_scope.

Section Stout.
Variables (C : numClosedFieldType) (n : nat) (L : list Z) (ex : (nat -> C) -> 'M[C]_n).
Hypotheses (n0 : (0 < n)%N) (HL : sizes L).
Notation CM := (complex_matrices C n).
Notation SU := (su_algebra C n).
Notation PG := (su_gauss ex).
Notation dn := (GaugeModel.down L).
Notation line U p x := (path_line (M := CM) L U p x : 'M[C]_n).
Notation part := (@ForceSpec.algebra_part C n).
Implicit Types U V W : links C n.

(** ** Only links on the lattice matter *)
Lemma line_same U V p x : same_links L U V -> in_dimensions L p -> on_lattice L x -> line V p x = line U p x.
Proof.
move=> H; elim: p x => [//|s p IH] x D hx.
have [h D'] := dims_cons D.
have e := IH (arrive L x s) D' (arrive_on HL s hx).
have e' : link_of (M := CM) L V s x = link_of (M := CM) L U s x.
  case: s h {D e} => d h; first exact: H.
  by rewrite /link_of; congr (dagger CM _); apply: H => //; exact: down_on.
exact: (f_equal2 (fun A B : 'M[C]_n => A *m B) e' e).
Qed.

Lemma dims_plaq d d2 : (d < length L)%N -> (d2 < length L)%N ->
  in_dimensions L [:: Up d; Up d2; Down d; Down d2] /\ in_dimensions L [:: Up d; Down d2; Down d; Up d2].
Proof. by move=> h h2; split=> s /=; do 4 (case=> [<- //|]). Qed.

Lemma plaquettes_same U V d x : same_links L U V -> (d < length L)%N -> on_lattice L x ->
  plaquette_sum L V d x = plaquette_sum L U d x.
Proof.
move=> H hd hx; rewrite /plaquette_sum big_seq_cond [RHS]big_seq_cond; apply: eq_bigr => d2 /andP [].
rewrite in_directions => h2 _; have [D1 D2] := dims_plaq hd h2.
exact: (f_equal2 (fun A B : 'M[C]_n => A + B) (line_same H D1 hx) (line_same H D2 hx)).
Qed.

Lemma same_smeared c U V W : same_links L U V -> smeared L ex c V W -> smeared L ex c U W.
Proof.
move=> H S d x hd hx; have [a [R E F]] := S d x hd hx; exists a; split; first exact: R.
  exact: (eq_trans E (f_equal (fun A => - c *: part A) (plaquettes_same H hd hx))).
exact: (eq_trans F (f_equal (fun A => ex a *m A) (H d x hd hx))).
Qed.

(** ** Repeated smearing *)
Lemma smeared_add c m U V W : smeared_times L ex c m U V -> smeared L ex c V W -> smeared_times L ex c m.+1 U W.
Proof.
elim: m U => [|m IH] U /=.
  by move=> H S; exists W; [exact: same_smeared H S|].
by case=> X h1 h2 S; exists X => //; exact: IH.
Qed.

Section Real.
Variable c : C.
Hypothesis rc : c \is Num.real.

Lemma turns_ok t U W : smeared_times L ex c (2 * t) U (smear_turns CM SU PG L t c U W).1.
Proof.
elim: t U W => [|t IH] U W; first by [].
rewrite mulnS add2n /=; set b := stout_smear1 CM SU PG L U W c; exists b; first exact: smear1_ok.
set a := stout_smear1 CM SU PG L b U c; exists a; first exact: smear1_ok.
exact: IH.
Qed.

Lemma smear_nonneg U S T iter : Z.le Z0 iter ->
  smeared_times L ex c (Z.to_nat iter) U (stout_smear CM SU PG L U S T c iter).
Proof.
move=> h; rewrite /stout_smear; case: Z.eqb_spec => h0.
  rewrite (turns_even _ h h0); exact: turns_ok.
rewrite (turns_odd _ h h0); set t := Z.to_nat _; have := turns_ok t U S.
case: (smear_turns CM SU PG L t c U S) => a b /= H.
apply: smeared_add H _; exact: smear1_ok.
Qed.

Lemma smear_negative U S T iter : Z.lt iter Z0 ->
  if Z.even iter then same_links L U (stout_smear CM SU PG L U S T c iter)
  else smeared L ex c U (stout_smear CM SU PG L U S T c iter).
Proof.
move=> h; rewrite /stout_smear (turns_negative _ h) rem_even; case: (Z.even iter); first by [].
exact: smear1_ok.
Qed.

(** ** All steps kept *)
Definition kept U (sl pl : list (links C n)) : Prop :=
  (forall i, (i < length sl)%N -> smeared_times L ex c i.+1 U (List.nth i sl U)) /\
  (forall i d x, (i < length sl)%N -> (d < length L)%N -> 
     List.nth i pl U d x = staples L (List.nth i (U :: sl) U) d x).

Lemma nth_default U W i (l : list (links C n)) : (i < length l)%N -> List.nth i l U = List.nth i l W.
Proof. by move=> /ssrnat.ltP h; exact: List.nth_indep. Qed.

Lemma list_ok U sl pl : (length sl <= length pl)%N -> exists sl' pl',
  [/\ smear_list CM SU PG L U sl pl c = Some (sl', pl'), length sl' = length sl, length pl' = length pl & kept U sl' pl'].
Proof.
elim: sl U pl => [|S sl IH] U pl hl.
  by exists nil, pl; split.
case: pl hl => [//|T pl] hl; cbn [smear_list length].
have H1 d x hd := @smear1_stapE C n L ex U S T c d x hd.
case: (stout_smear1_stap CM SU PG L U S T c) H1 => S' T' /= H1.
have [sl' [pl' [E l1 l2 [K1 K2]]]] := IH S' pl hl.
have HS : smeared L ex c U S' by apply: smear_smeared => // d x hd _; exact: (H1 d x hd).1.
exists (S' :: sl'), (T' :: pl'); split; [by rewrite E|by rewrite /= l1|by rewrite /= l2|split].
  case=> [|i] hi; first by exists S'.
  exists S' => //; rewrite -[List.nth _ _ U]/(List.nth i sl' U) (nth_default U S') //; exact: K1.
case=> [|i] d x hi hd; first exact: (H1 d x hd).2.
rewrite -[List.nth i.+1 (T' :: pl') U]/(List.nth i pl' U) -[List.nth i.+1 (U :: S' :: sl') U]/(List.nth i (S' :: sl') U).
rewrite (nth_default U S') ?(nth_default U S' (l := S' :: sl')); [exact: K2|exact: (leqW hi)|].
by rewrite l2; move: hi; rewrite /= l1 => hi; exact: (leq_trans hi hl).
Qed.

Lemma list_none U sl pl : (length pl < length sl)%N -> smear_list CM SU PG L U sl pl c = None.
Proof.
elim: sl U pl => [//|S sl IH] U [//|T pl] hl; cbn [smear_list].
by case: (stout_smear1_stap CM SU PG L U S T c) => S' T'; rewrite IH.
Qed.
End Real.

(** ** Gauge transformations *)
Section Gauge.
Variable g : site -> 'M[C]_n.
Hypothesis Hg : forall x, on_lattice L x -> special (g x).
Hypothesis HE : matrix_exponential ex.
Let Hu x (hx : on_lattice L x) : GaugeSpec.unitary CM (g x) := (Hg hx).1.

Lemma plaquettes_gauge U W d x : in_gauge L g U W -> (d < length L)%N -> on_lattice L x ->
  plaquette_sum L W d x = g x *m plaquette_sum L U d x *m dg (g x).
Proof.
move=> I hd hx; rewrite (@plaquettes_same (transform CM L g U) W d x I hd hx) /plaquette_sum.
rewrite mulmx_sumr mulmx_suml; apply: eq_bigr => d2 _.
have hy := up_on L d x HL hx; have hz := down_on L d2 x HL hx; have hw := up_on L d2 x HL hx.
have e1 := line_tr HL Hu U [:: Up d; Up d2; Down d; Down d2] hx.
have e2 := line_tr HL Hu U [:: Up d; Down d2; Down d; Up d2] hx.
have E1 : path_end L [:: Up d; Up d2; Down d; Down d2] x = x.
  by rewrite /path_end /= (up_comm L d2 d) !(down_up _ _ _ HL).
have E2 : path_end L [:: Up d; Down d2; Down d; Up d2] x = x.
  by rewrite /path_end /= -(up_down_comm L d d2 x HL) (down_up _ _ _ HL hz) (up_down _ _ _ HL hx).
rewrite E1 in e1; rewrite E2 in e2.
rewrite mulmxDr mulmxDl; exact: (f_equal2 (fun A B : 'M[C]_n => A + B) e1 e2).
Qed.

Lemma smeared_gauge c U U' W W' : in_gauge L g U W -> smeared L ex c U U' -> smeared L ex c W W' -> in_gauge L g U' W'.
Proof.
move=> I H H' d x hd hx.
have [a [_ E F]] := H d x hd hx; have [a' [_ E' F']] := H' d x hd hx.
have u : dg (dg (g x)) *m dg (g x) = 1%:M by rewrite dgK; exact: (Hu hx).1.
have e : algebra_matrix n a' = g x *m algebra_matrix n a *m dg (g x).
  rewrite E' E (plaquettes_gauge I hd hx).
  have := part_conj (plaquette_sum L U d x) u; rewrite dgK => <-.
  by rewrite -scalemxAr -scalemxAl.
have X := HE.2 a a' (g x) (Hu hx) e.
rewrite F' X (I d x hd hx) /transform F.
rewrite -![mul CM _ _]/(_ *m _) -![dagger CM _]/(dg _) -[conjugate _]/(dg _).
by rewrite !mulmxA -(mulmxA _ (dg (g x)) (g x)) (gu Hg hx) mulmx1.
Qed.

Lemma smeared_special c U U' : special_links L U -> smeared L ex c U U' -> special_links L U'.
Proof.
move=> HU H d x hd hx; have [a [R _ F]] := H d x hd hx; rewrite F; apply: special_mul; last exact: HU.
exact: HE.1.
Qed.

Lemma same_gauge U U' W W' : in_gauge L g U W -> same_links L U U' -> same_links L W W' -> in_gauge L g U' W'.
Proof. by move=> I H H' d x hd hx; rewrite (H' d x hd hx) (I d x hd hx) /transform (H d x hd hx). Qed.

Lemma times_gauge c m U U' W W' : in_gauge L g U W -> smeared_times L ex c m U U' -> smeared_times L ex c m W W' ->
  in_gauge L g U' W'.
Proof.
elim: m U W => [|m IH] U W I /=; first exact: same_gauge.
case=> X h1 h2 [Y k1 k2]; exact: (IH X Y (smeared_gauge I h1 k1)).
Qed.
Lemma times_special c m U U' : special_links L U -> smeared_times L ex c m U U' -> special_links L U'.
Proof.
elim: m U => [|m IH] U HU /=; first by move=> H d x hd hx; rewrite (H d x hd hx); exact: HU.
by case=> X h1 h2; exact: (IH X (smeared_special HU h1)).
Qed.
End Gauge.
End Stout.
