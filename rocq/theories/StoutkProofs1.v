(** One step with the kept coefficients. *)
Set Warnings "-notation-overridden,-ambiguous-paths".
From Coq Require Import ZArith List.
From mathcomp Require Import all_ssreflect all_fingroup all_algebra.
From Verif Require Import LinalgSpec FieldTac AlgebraModel AlgebraSpec
  GaugeModel GaugeSpec GaugeMatrix GaugeProofs1 GaugeProofs2 MatrixSpec ForceModel ForceSpec
  ForceProofs1 ForceProofs2 ForceProofs3 ForceProofs4 ForceProofs5 ForceProofs7
  GaussModel GaussSpec GaussProofs1 GaussProofs2 FlowSpec FlowstepSpec
  StoutModel StoutSpec StoutProofs1 StoutProofs2 StoutforceModel StoutforceSpec
  StoutforceProofs1 StoutforceProofs2 StoutforceProofs3 StoutforceProofs4 StoutforceProofs5 StoutkModel.
Set Implicit Arguments.
Unset Strict Implicit.
Unset Printing Implicit Defensive.
Import Order.TTheory GRing.Theory Num.Theory.
Local Open Scope ring_scope.

Section Loop.
Variables (C : numClosedFieldType) (n : nat) (L : list Z) (ex kexp : (nat -> C) -> 'M[C]_n).
Variable fast : (nat -> C) -> 'M[C]_n -> 'M[C]_n -> (nat -> C) -> 'M[C]_n.
Hypotheses (n0 : (0 < n)%N) (HL : sizes L).
Notation CM := (complex_matrices C n).
Notation LM := (complex_linear C n).
Notation SU := (su_algebra C n).
Notation PG := (su_gauss ex).
Notation Ex := (@algebra_matrix C n).
Notation toalg := (@algebra_components C n).
Notation rc := (real_components (n * n - 1)).
Notation prod := (product n L).
Notation real := (real_momenta n L).
Notation dexp := (fun a k => fast a (ex a) (kexp a) k).
Hypothesis HX : matrix_exponential ex.
Hypothesis HE : exponential_derivative ex dexp.
Variable c : C.
Hypothesis cr : c \is Num.real.

Let HQ a : rc a -> ex a *m dg (ex a) = 1%:M.
Proof. by move=> Ra; exact: (HX.1 a Ra).1.1. Qed.

(** ** Smearing *)
Lemma pair_fold (f g : nat -> site -> 'M[C]_n) l (S K : links C n) d x :
  (fold_left (fun st d => let '(s, k) := st in (set_links CM s d (fun x => f d x), set_links CM k d (fun x => g d x))) l (S, K)).1 d x
    = (if d \in l then f d x else S d x) /\
  (fold_left (fun st d => let '(s, k) := st in (set_links CM s d (fun x => f d x), set_links CM k d (fun x => g d x))) l (S, K)).2 d x
    = (if d \in l then g d x else K d x).
Proof.
elim: l S K => [//|d1 l IH] S K /=.
have [-> ->] := IH (set_links CM S d1 (fun x => f d1 x)) (set_links CM K d1 (fun x => g d1 x)).
by rewrite !set_linksE in_cons; case: (d \in l); rewrite ?orbT ?orbF //; case: eqP => [->|].
Qed.

Lemma smear1kE (V S T K : links C n) d x : (d < length L)%N ->
  let r := stout_smear1k CM SU PG L kexp V S T K c in
  [/\ r.1.1 d x = smear L ex V c d x, r.1.2 d x = staples L V d x & r.2 d x = kexp (q_arg V (staples L V) c d x)].
Proof.
move=> hd.
pose q d x := components (- c) (V d x *m staplesums CM L V T d x).
have [] := @pair_fold (fun d x => ex (q d x) *m V d x) (fun d x => kexp (q d x)) (directions L) S K d x.
rewrite in_directions hd.
have -> : stout_smear1k CM SU PG L kexp V S T K c =
  let '(s, k) := fold_left (fun st d => let '(s, k) := st in (set_links CM s d (fun x => ex (q d x) *m V d x), set_links CM k d (fun x => kexp (q d x))))
    (directions L) (S, K) in (s, staplesums CM L V T, k) by [].
case: (fold_left _ _ _) => s k; cbn [fst snd] => e1 e2.
have eS := @staplesumsE C n L V T d x hd.
by split; [rewrite e1 /q eS|exact: eS|rewrite e2 /q eS].
Qed.

(** F' follows F in the list, with the staples P and the coefficients Q of F. *)
Definition stepk_of (F F' P Q : links C n) : Prop :=
  step_of L ex c F F' P /\ forall d x, (d < length L)%N -> on_lattice L x -> Q d x = kexp (q_arg F (staples L F) c d x).

Lemma listk_steps U sl pl kl sl' pl' kl' : smeark_list CM SU PG L kexp U sl pl kl c = Some (sl', pl', kl') ->
  length sl' = length sl /\
  forall i, (i < length sl)%N -> exists F F' P Q,
    [/\ nth_error (U :: sl') i = Some F, nth_error sl' i = Some F', nth_error pl' i = Some P, nth_error kl' i = Some Q & stepk_of F F' P Q].
Proof.
elim: sl U pl kl sl' pl' kl' => [|S sl IH] U pl kl sl' pl' kl'; cbn [smeark_list]; first by case=> <- _ _.
case: pl => [//|T pl]; case: kl => [//|K kl].
pose f W := stout_smear1k CM SU PG L kexp W S T K c.
rewrite -/(f U); have HT : forall W d x, (d < length L)%N -> [/\ (f W).1.1 d x = smear L ex W c d x,
  (f W).1.2 d x = staples L W d x & (f W).2 d x = kexp (q_arg W (staples L W) c d x)] by move=> W d x hd; exact: smear1kE.
move: f HT => f HT; case e: (f U) => [[F1 P1] Q1].
case r: (smeark_list _ _ _ _ _ _ _ _ _ _) => [[[sl1 pl1] kl1]|] // [<- <- <-].
have [el H] := IH _ _ _ _ _ _ r; split; first by rewrite /= el.
case=> [|i] hi.
  exists U, F1, P1, Q1; split=> //; split; last first.
    by move=> d x hd hx; have [_ _] := HT U d x hd; rewrite e.
  exists (fun W => (f W).1.1).
    by rewrite e; split=> // W d x hd hx; have [] := HT W d x hd.
  by move=> d x hd hx; have [_] := HT U d x hd; rewrite e.
by have [F [F' [P [Q K']]]] := H i hi; exists F, F', P, Q.
Qed.

Lemma listk_some U sl pl kl : (length sl <= length pl)%N -> (length sl <= length kl)%N ->
  exists sl' pl' kl', smeark_list CM SU PG L kexp U sl pl kl c = Some (sl', pl', kl').
Proof.
elim: sl U pl kl => [|S sl IH] U pl kl hp hk; first by exists nil, pl, kl.
case: pl hp => [//|T pl] hp; case: kl hk => [//|K kl] hk; cbn [smeark_list].
case: (stout_smear1k _ _ _ _ _ _ _ _ _ _) => [[F P] Q].
by have [sl' [pl' [kl' ->]]] := IH F pl kl hp hk; exists (F :: sl'), (P :: pl'), (Q :: kl').
Qed.

(** ** The force *)
Section Dirs.
Variables (U0 V Q S : links C n).
Let te d x : 'M[C]_n := U0 d x *m dg (V d x).
Let ka (K : moments C) d x : 'M[C]_n := Ex (components c (fast (q_arg V S c d x) (te d x) (Q d x) (K d x))).
Let fm (K : moments C) d x : 'M[C]_n := dg (te d x) *m Ex (K d x) *m te d x - V d x *m S d x *m ka K d x.

Lemma dirsk_fold l (N0 : links C n) (K : moments C) d x : uniq l ->
  (fold_left (forcek_dir CM LM SU PG fast U0 V Q S c) l (N0, K)).1 d x = (if d \in l then ka K d x *m V d x else N0 d x) /\
  (fold_left (forcek_dir CM LM SU PG fast U0 V Q S c) l (N0, K)).2 d x = (if d \in l then toalg (fm K d x) else K d x).
Proof.
elim: l N0 K => [//|d1 l IH] N0 K /= /andP [nl ul].
set N1 := set_links _ _ _ _; set K1 := set_dir _ _ _ _ _.
have [-> ->] := IH N1 K1 ul; rewrite in_cons.
have eN : N1 d x = if d == d1 then ka K d1 x *m V d1 x else N0 d x by exact: set_linksE.
have eK : K1 d x = if d == d1 then toalg (fm K d1 x) else K d x by exact: set_dirE.
case: (boolP (d \in l)) => hl.
  have nd : (d == d1) = false by apply/negP => /eqP e; rewrite -e hl in nl.
  rewrite orbT /ka /fm /ka eK nd; by split.
by rewrite orbF eN eK; case: eqP => [->|_].
Qed.
End Dirs.

Lemma stepk_gradient F F' P Q N0 K (T : links C n -> links C n) : unitary_links L F ->
  (forall U d x, (d < length L)%N -> on_lattice L x -> T U d x = smear L ex U c d x) -> F' = T F ->
  (forall d x, (d < length L)%N -> on_lattice L x -> P d x = staples L F d x) ->
  (forall d x, (d < length L)%N -> on_lattice L x -> Q d x = kexp (q_arg F (staples L F) c d x)) ->
  forall S c0, gradient_at L S F' c0 K ->
  gradient_at L (fun U => S (T U)) F c0 (forcek_step CM LM SU PG L fast F' F Q P N0 c K).2.
Proof.
move=> HF HT eF HS HK S c0; rewrite /forcek_step.
have H d x := @dirsk_fold F' F Q P (directions L) N0 K d x (uniq_directions L).
move: (fold_left _ _ (N0, K)) H => [N1 K1]; cbn [fst snd] => H; rewrite {1}eF.
have te d x : (d < length L)%N -> on_lattice L x -> F' d x *m dg (F d x) = ex (q_arg F (staples L F) c d x).
  move=> hd hx; have u : F d x *m dg (F d x) = 1%:M by exact: (HF d x hd hx).1.
  by rewrite eF HT // /smear -mulmxA u mulmx1.
have qe d x : (d < length L)%N -> on_lattice L x -> q_arg F P c d x = q_arg F (staples L F) c d x.
  by move=> hd hx; rewrite /q_arg HS.
apply: (fields_gradient n0 HL HE HQ cr HT) => d x hd hx.
  by have [-> _] := H d x; rewrite in_directions hd (te d x hd hx) (qe d x hd hx) (HK d x hd hx).
have [_ ->] := H d x; rewrite in_directions hd (te d x hd hx) (qe d x hd hx) (HK d x hd hx) (HS d x hd hx); reflexivity.
Qed.

Lemma loopk_gradient (Fs Ps Qs : list (links C n)) c0 U : nth_error Fs 0 = Some U ->
  forall m, (forall i, (i < m)%N -> exists F F' P Q,
    [/\ nth_error Fs i = Some F, nth_error Fs i.+1 = Some F', nth_error Ps i = Some P, nth_error Qs i = Some Q & stepk_of F F' P Q]) ->
  (forall i F, (i < m)%N -> nth_error Fs i = Some F -> unitary_links L F) ->
  forall S N K F, nth_error Fs m = Some F -> gradient_at L S F c0 K ->
  exists KS Phi, [/\ forcek_loop CM LM SU PG L fast m Fs Ps Qs c N K = Some KS,
    gradient_at L (fun W => S (Phi W)) U c0 KS & forall W, smeared_times L ex c m W (Phi W)].
Proof.
move=> e0; elim=> [|m IH] H HU S N K F eF G.
  exists K, id; split=> //; move: eF; rewrite e0 => -[->]; exact: G.
have [F0 [F' [P [Q [e1 e2 e3 e4 [[T [eT HT] HP] HK]]]]]] := H m (ltnSn m).
move: eF; rewrite e2 => -[eF]; rewrite -eF in G.
have G1 := stepk_gradient N (HU m F0 (ltnSn m) e1) HT eT HP HK G.
cbn [forcek_loop]; have -> : Nat.add m 1 = m.+1 by exact: Nat.add_1_r.
rewrite e1 e2 e3 e4.
case e: (forcek_step CM LM SU PG L fast F' F0 Q P N c K) => [N1 K1]; rewrite e in G1; cbn [fst snd] in G1.
have [KS [Phi [E1 E2 E3]]] := IH (fun i hi => H i (ltn_trans hi (ltnSn m)))
  (fun i F hi => HU i F (ltn_trans hi (ltnSn m))) _ N1 K1 F0 e1 G1.
exists KS, (fun W => T (Phi W)); split=> // W.
exact: (smeared_add HL (E3 W) (step_smeared n0 HL cr _ HT)).
Qed.

(** Every field of the list is in SU(n), and the last one is U smeared m times. *)
Lemma fields_times (Fs Ps Qs : list (links C n)) U : nth_error Fs 0 = Some U -> forall m,
  (forall i, (i < m)%N -> exists F F' P Q,
    [/\ nth_error Fs i = Some F, nth_error Fs i.+1 = Some F', nth_error Ps i = Some P, nth_error Qs i = Some Q & stepk_of F F' P Q]) ->
  forall i, (i <= m)%N -> exists2 F, nth_error Fs i = Some F & smeared_times L ex c i U F.
Proof.
move=> e0 m H; elim=> [|i IH] hi; first by exists U => // d x _ _.
have [F0 [F' [P [Q [e1 e2 e3 e4 [[T [eT HT] HP] HK]]]]]] := H i hi.
have [F] := IH (ltnW hi); rewrite e1 => -[<-] HF; exists F' => //.
by rewrite eT; exact: (smeared_add HL HF (step_smeared n0 HL cr _ HT)).
Qed.

Theorem forcek_ok U sl pl kl sl' pl' kl' (K KS0 : moments C) N0 S S' c0 m : special_links L U ->
  length sl = m.+1 -> stout_smeark CM SU PG L kexp U sl pl kl c = Some (sl', pl', kl') ->
  (forall W W', smeared_times L ex c m W W' -> S' W = S W') ->
  gradient_at L S (List.nth m sl' U) c0 K ->
  exists2 KS, stout_smeark_force CM LM SU PG L fast sl' pl' kl' K KS0 N0 c = Some KS & gradient_at L S' U c0 KS.
Proof.
move=> HU; case: sl => [//|S0 sl] [el]; rewrite /stout_smeark.
case r: (smeark_list _ _ _ _ _ _ _ _ _ _) => [[[sl1 pl1] kl1]|] // [<- <- <-] HS G.
have [el1 H] := listk_steps r; rewrite el in H el1.
rewrite /stout_smeark_force; cbn [length]; rewrite el1; have -> : Nat.sub m.+1 1 = m by exact: Nat.sub_0_r.
set K1 := fold_left _ _ _.
have G1 : gradient_at L S (List.nth m (U :: sl1) U) c0 K1.
  by apply: gradient_same G => d x hd; rewrite /K1 copy_fold in_directions hd.
have e : nth_error (U :: sl1) m = Some (List.nth m (U :: sl1) U).
  by apply: List.nth_error_nth'; cbn [length]; rewrite el1; apply/ssrnat.ltP.
have HF i F : (i < m)%N -> nth_error (U :: sl1) i = Some F -> unitary_links L F.
  move=> hi; have [F1 -> HF1] := fields_times (Fs := U :: sl1) (erefl _) H (ltnW hi); case=> <- d x hd hx.
  exact: (times_special HX HU HF1 hd hx).1.
have [KS [Phi [E1 E2 E3]]] := loopk_gradient (Fs := U :: sl1) (erefl _) H HF N0 e G1.
exists KS; first exact: E1.
by apply: gradient_ext E2 => W; exact: HS.
Qed.

(** The lists of fields. *)
Theorem smeark_ok U sl pl kl m : length sl = m.+1 -> (m <= length pl)%N -> (m <= length kl)%N ->
  exists sl' pl' kl', [/\ stout_smeark CM SU PG L kexp U sl pl kl c = Some (sl', pl', kl'), length sl' = m.+1 &
    forall i, (i <= m)%N -> exists2 F, nth_error sl' i = Some F & smeared_times L ex c i U F].
Proof.
case: sl => [//|S0 sl] [el] hp hk; rewrite /stout_smeark -el in hp hk *.
have [sl' [pl' [kl' r]]] := listk_some U hp hk; rewrite r; exists (U :: sl'), pl', kl'.
have [el1 H] := listk_steps r; split=> // [|i hi]; first by cbn [length]; rewrite el1.
exact: (fields_times (Fs := U :: sl') (erefl _) H hi).
Qed.
End Loop.
