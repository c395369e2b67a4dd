(** The loop over the steps. *)
Set Warnings "-notation-overridden,-ambiguous-paths".
From Coq Require Import ZArith List.
From mathcomp Require Import all_ssreflect all_fingroup all_algebra.
From Verif Require Import LinalgSpec FieldTac AlgebraModel AlgebraSpec
  GaugeModel GaugeSpec GaugeMatrix GaugeProofs1 GaugeProofs2 MatrixSpec ForceModel ForceSpec
  ForceProofs1 ForceProofs2 ForceProofs3 ForceProofs4 ForceProofs5 ForceProofs7
  GaussModel GaussSpec GaussProofs1 GaussProofs2
  StoutModel StoutSpec StoutProofs1 StoutProofs2 StoutforceModel StoutforceSpec
  StoutforceProofs1 StoutforceProofs2 StoutforceProofs3 StoutforceProofs4.
Set Implicit Arguments.
Unset Strict Implicit.
Unset Printing Implicit Defensive.
Import Order.TTheory GRing.Theory Num.Theory.
Local Open Scope ring_scope.

Section Loop.
Variables (C : numClosedFieldType) (n : nat) (L : list Z) (ex : (nat -> C) -> 'M[C]_n) (dexp : (nat -> C) -> (nat -> C) -> 'M[C]_n).
Hypotheses (n0 : (0 < n)%N) (HL : sizes L).
Notation CM := (complex_matrices C n).
Notation LM := (complex_linear C n).
Notation SU := (su_algebra C n).
Notation PG := (su_gauss ex).
Notation rc := (real_components (n * n - 1)).
Notation prod := (product n L).
Notation real := (real_momenta n L).
Hypothesis HE : exponential_derivative ex dexp.
Hypothesis HQ : forall a, rc a -> ex a *m dg (ex a) = 1%:M.
Variable c : C.
Hypothesis cr : c \is Num.real.

(** F' follows F in the list, with the staples P of F. *)
Definition step_of (F F' P : links C n) : Prop :=
  exists2 T : links C n -> links C n,
    F' = T F /\ (forall W d x, (d < length L)%N -> on_lattice L x -> T W d x = smear L ex W c d x) &
    forall d x, (d < length L)%N -> on_lattice L x -> P d x = staples L F d x.

Lemma list_steps U sl pl sl' pl' : smear_list CM SU PG L U sl pl c = Some (sl', pl') ->
  length sl' = length sl /\
  forall i, (i < length sl)%N -> exists F F' P,
    [/\ nth_error (U :: sl') i = Some F, nth_error sl' i = Some F', nth_error pl' i = Some P & step_of F F' P].
Proof.
elim: sl U pl sl' pl' => [|S sl IH] U pl sl' pl'; cbn [smear_list]; first by case=> <- _.
case: pl => [//|T pl].
have HT W d x (hd : (d < length L)%N) := @smear1_stapE C n L ex W S T c d x hd.
pose f W := stout_smear1_stap CM SU PG L W S T c.
rewrite -/(f U); have {}HT : forall W d x, (d < length L)%N -> (f W).1 d x = smear L ex W c d x /\ (f W).2 d x = staples L W d x by exact: HT.
move: f HT => f HT; case e: (f U) => [F1 P1].
case r: (smear_list _ _ _ _ _ _ _ _) => [[sl1 pl1]|] // [<- <-].
have [el H] := IH _ _ _ _ r; split; first by rewrite /= el.
case=> [|i] hi.
  exists U, F1, P1; split=> //; exists (fun W => (f W).1).
    by rewrite e; split=> // W d x hd hx; exact: (HT W d x hd).1.
  by move=> d x hd hx; have := (HT U d x hd).2; rewrite e.
by have [F [F' [P K]]] := H i hi; exists F, F', P.
Qed.

Lemma step_smeared (T : links C n -> links C n) W :
  (forall W d x, (d < length L)%N -> on_lattice L x -> T W d x = smear L ex W c d x) -> smeared L ex c W (T W).
Proof. by move=> H; apply: smear_smeared => // d x hd hx; exact: H. Qed.

Lemma loop_gradient (Fs Ps : list (links C n)) c0 U : nth_error Fs 0 = Some U ->
  forall m, (forall i, (i < m)%N -> exists F F' P,
    [/\ nth_error Fs i = Some F, nth_error Fs i.+1 = Some F', nth_error Ps i = Some P & step_of F F' P]) ->
  forall S N K F, nth_error Fs m = Some F -> gradient_at L S F c0 K ->
  exists KS Phi, [/\ force_loop CM LM SU PG L dexp m Fs Ps c N K = Some KS,
    gradient_at L (fun W => S (Phi W)) U c0 KS & forall W, smeared_times L ex c m W (Phi W)].
Proof.
move=> e0; elim=> [|m IH] H S N K F eF G.
  exists K, id; split=> //; move: eF; rewrite e0 => -[->]; exact: G.
have [F0 [F' [P [e1 e2 e3 [T [eT HT] HP]]]]] := H m (ltnSn m).
move: eF; rewrite e2 => -[eF]; rewrite -eF eT in G.
have G1 := step_gradient n0 HL HE HQ cr N HT HP G.
cbn [force_loop]; rewrite e1 e3.
case e: (force_step CM LM SU PG L dexp F0 P N c K) => [N1 K1]; rewrite e in G1; cbn [fst snd] in G1.
have [KS [Phi [E1 E2 E3]]] := IH (fun i hi => H i (ltn_trans hi (ltnSn m))) _ N1 K1 F0 e1 G1.
exists KS, (fun W => T (Phi W)); split=> // W.
exact: (smeared_add HL (E3 W) (step_smeared _ HT)).
Qed.

(** The momenta matter on the lattice only. *)
Lemma gradient_same (S : links C n -> C) V c0 (K K' : moments C) : (forall d x, (d < length L)%N -> K' d x = K d x) ->
  gradient_at L S V c0 K -> gradient_at L S V c0 K'.
Proof.
move=> H [R G]; split=> [d x k hd hx hk|U E RE HU]; first by rewrite H //; exact: R.
have [D HD e] := G U E RE HU; exists D => //; rewrite -e.
apply: big_In => d /in_seq [_ /ssrnat.ltP hd]; apply: eq_bigr => x _; by rewrite H.
Qed.

Lemma gradient_ext (S S' : links C n -> C) V c0 (K : moments C) : (forall W, S' W = S W) -> gradient_at L S V c0 K -> gradient_at L S' V c0 K.
Proof.
move=> H [R G]; split=> // U E RE HU; have [D HD e] := G U E RE HU; exists D => //.
by rewrite H; apply: deriv_ext HD => t _; rewrite H.
Qed.

Lemma copy_fold (K : moments C) l (K0 : moments C) d x :
  fold_left (fun KS d1 => set_dir CM SU KS d1 (fun x => K d1 x)) l K0 d x = if d \in l then K d x else K0 d x.
Proof.
elim: l K0 => [//|d1 l IH] K0 /=; rewrite IH set_dirE in_cons.
by case: ifP => [_|_]; rewrite ?orbT // orbF; case: eqP => [->|].
Qed.

Theorem force_ok U sl pl sl' pl' (K KS0 : moments C) N0 S S' c0 m :
  length sl = m.+1 -> stout_smear_list CM SU PG L U sl pl c = Some (sl', pl') ->
  (forall W W', smeared_times L ex c m W W' -> S' W = S W') ->
  gradient_at L S (List.nth m sl' U) c0 K ->
  exists2 KS, stout_smear_force CM LM SU PG L dexp sl' pl' K KS0 N0 c = Some KS & gradient_at L S' U c0 KS.
Proof.
case: sl => [//|S0 sl] [el]; rewrite /stout_smear_list.
case r: (smear_list _ _ _ _ _ _ _ _) => [[sl1 pl1]|] // [<- <-] HS G.
have [el1 H] := list_steps r; rewrite el in H el1.
rewrite /stout_smear_force; cbn [length]; rewrite el1; have -> : Nat.sub m.+1 1 = m by exact: Nat.sub_0_r.
set K1 := fold_left _ _ _.
have G1 : gradient_at L S (List.nth m (U :: sl1) U) c0 K1.
  by apply: gradient_same G => d x hd; rewrite /K1 copy_fold in_directions hd.
have e : nth_error (U :: sl1) m = Some (List.nth m (U :: sl1) U).
  by apply: List.nth_error_nth'; cbn [length]; rewrite el1; apply/ssrnat.ltP.
have [KS [Phi [E1 E2 E3]]] := loop_gradient (Fs := U :: sl1) (erefl _) H N0 e G1.
exists KS; first exact: E1.
by apply: gradient_ext E2 => W; exact: HS.
Qed.
End Loop.
