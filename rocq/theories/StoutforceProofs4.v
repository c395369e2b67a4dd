(** All steps: the force on the links before smearing. *)
Set Warnings "-notation-overridden,-ambiguous-paths".
From Coq Require Import ZArith List.
From mathcomp Require Import all_ssreflect all_fingroup all_algebra.
From Verif Require Import LinalgSpec FieldTac AlgebraModel AlgebraSpec AlgebraProofs2 AlgebraProofs4 AlgebraProofs5 AlgebraProps
  GaugeModel GaugeSpec GaugeMatrix GaugeProofs1 GaugeProofs2 MatrixSpec ForceModel ForceSpec
  ForceProofs1 ForceProofs2 ForceProofs3 ForceProofs4 ForceProofs5 ForceProofs7 ForceProofs10 ForceProps
  ForceProofs9 GaussModel GaussSpec GaussProofs1 GaussProofs2 GaussProofs3
  StoutModel StoutSpec StoutProofs1 StoutforceModel StoutforceSpec StoutforceProofs1 StoutforceProofs2 StoutforceProofs3.
Set Implicit Arguments.
Unset Strict Implicit.
Unset Printing Implicit Defensive.
Import Order.TTheory GRing.Theory Num.Theory.
Local Open Scope ring_scope.

Section Step.
Variables (C : numClosedFieldType) (n : nat) (L : list Z) (ex : (nat -> C) -> 'M[C]_n) (dexp : (nat -> C) -> (nat -> C) -> 'M[C]_n).
Hypotheses (n0 : (0 < n)%N) (HL : sizes L).
Notation CM := (complex_matrices C n).
Notation LM := (complex_linear C n).
Notation SU := (su_algebra C n).
Notation PG := (su_gauss ex).
Notation dn := (GaugeModel.down L).
Notation Ex := (@algebra_matrix C n).
Notation toalg := (@algebra_components C n).
Notation rc := (real_components (n * n - 1)).
Notation prod := (product n L).
Notation real := (real_momenta n L).
Hypothesis HE : exponential_derivative ex dexp.
Hypothesis HQ : forall a, rc a -> ex a *m dg (ex a) = 1%:M.
Variable c : C.
Hypothesis cr : c \is Num.real.

(** The components stay real. *)
Lemma dir_real (K : moments C) d (f : site -> nat -> C) :
  real K -> (forall x k, (d < length L)%N -> on_lattice L x -> (k < n * n - 1)%N -> f x k \is Num.real) -> real (set_dir CM SU K d f).
Proof.
move=> RK H d' x k hd hx hk; rewrite set_dirE; case: eqP => e; last exact: RK.
by apply: H => //; rewrite -e.
Qed.

Lemma pair_real (V N : links C n) d1 (K : moments C) d2 : real K -> real (force_pair CM LM SU PG L V N d1 K d2).
Proof.
move=> RK; rewrite /force_pair; case: Nat.eqb => //.
have T (A : 'M[C]_n) k : (k < n * n - 1)%N -> toalg A k \is Num.real by exact: toalg_real.
apply: dir_real => [|x k hd hx hk].
  by apply: dir_real => // x k hd hx hk; apply: realB; [exact: RK|exact: T].
apply: realB; last exact: T.
by apply: dir_real hd hx hk => // {}x {}k hd hx hk; apply: realB; [exact: RK|exact: T].
Qed.

Lemma inner_real (V N : links C n) d1 l (K : moments C) : real K -> real (fold_left (force_pair CM LM SU PG L V N d1) l K).
Proof. by elim: l K => [//|d l IH] K RK; apply: IH; exact: pair_real. Qed.
Lemma outer_real (V N : links C n) l (K : moments C) : real K ->
  real (fold_left (fun K d1 => fold_left (force_pair CM LM SU PG L V N d1) (directions L) K) l K).
Proof. by elim: l K => [//|d l IH] K RK; apply: IH; exact: inner_real. Qed.

Lemma prod_Ex (E K : moments C) : real E -> real K ->
  prod E K = - (2%:R * \sum_(d <- directions L) \sum_(x <- sites L) 'Re (\tr (Ex (E d x) *m Ex (K d x)))).
Proof.
move=> RE RK; rewrite mulr_sumr -sumrN; apply: big_In => d /in_seq [_ /ssrnat.ltP hd].
rewrite mulr_sumr -sumrN; apply: sum_sites => x hx.
by apply: (dot_Ex n0) => k hk; [exact: RE|exact: RK].
Qed.

(** The first loop gives N1 and K1. *)
Section Fields.
Variables (T : links C n -> links C n) (V N1 : links C n) (K K1 : moments C).
Hypothesis HT : forall U d x, (d < length L)%N -> on_lattice L x -> T U d x = smear L ex U c d x.
Hypothesis HN : forall d x, (d < length L)%N -> on_lattice L x -> N1 d x = kappa dexp V (staples L V) c K d x *m V d x.
Hypothesis HK : forall d x, (d < length L)%N -> on_lattice L x -> K1 d x = toalg (first_matrix ex dexp V (staples L V) c K d x).
Notation KS := (fold_left (fun K d1 => fold_left (force_pair CM LM SU PG L V N1 d1) (directions L) K) (directions L) K1).

Lemma fields_real : real KS.
Proof. by apply: outer_real => d x k hd hx hk; rewrite HK //; exact: toalg_real. Qed.

Lemma fields_product U E : real K -> real E -> links_move L U V E ->
  exists E', [/\ real E', links_move L (fun t => T (U t)) (T V) E' & prod E KS = prod E' K].
Proof.
move=> RK RE HU.
have [E' HE'] := choose_links (fun _ => 0) (fun d x => @link_step C n L ex dexp n0 HL HE HQ V E K U c RE RK HU cr d x).
exists E'; have RE' : real E' by move=> d x k hd hx hk; have [R _ _] := HE' d x hd hx; exact: R.
split=> //.
  move=> d x i j hd hx; have [_ M _] := HE' d x hd hx; rewrite HT //.
  by apply: deriv_ext (M i j) => t _; rewrite HT.
rewrite (prod_Ex RE' RK) (pairs_outer ex n0 RE V N1) => [|d]; last by rewrite in_directions.
rewrite (rates HL) [in RHS]mulr_sumr -[RHS]sumrN.
have -> : prod E K1 = \sum_(d <- directions L) - (2%:R * \sum_(x <- sites L) rt E d x (first_matrix ex dexp V (staples L V) c K d x)).
  apply: big_In => d /in_seq [_ /ssrnat.ltP hd]; rewrite mulr_sumr -sumrN; apply: sum_sites => x hx.
  rewrite -(dot_toalg n0); last by move=> k hk; exact: RE.
  by apply: eq_bigr => k _; rewrite HK.
rewrite mulr_sumr -big_split /=; apply: big_In => d /in_seq [_ /ssrnat.ltP hd].
rewrite -mulrN -mulrDr -mulrN; congr (_ * _); rewrite -!sumrN -big_split /=; apply: sum_sites => x hx.
have [_ _ ->] := HE' d x hd hx; rewrite opprB addrC; congr (_ - _).
by rewrite HN.
Qed.

Lemma fields_gradient S c0 : gradient_at L S (T V) c0 K -> gradient_at L (fun U => S (T U)) V c0 KS.
Proof.
move=> [RK G]; split; first exact: fields_real.
move=> U E RE HU; have [E' [RE' HU' ->]] := fields_product RK RE HU; exact: G.
Qed.
End Fields.

Lemma step_gradient (T : links C n -> links C n) (V staps N0 : links C n) (K : moments C) :
  (forall U d x, (d < length L)%N -> on_lattice L x -> T U d x = smear L ex U c d x) ->
  (forall d x, (d < length L)%N -> on_lattice L x -> staps d x = staples L V d x) ->
  forall S c0, gradient_at L S (T V) c0 K ->
  gradient_at L (fun U => S (T U)) V c0 (force_step CM LM SU PG L dexp V staps N0 c K).2.
Proof.
move=> HT HS S c0; rewrite /force_step.
have H d x := @dirs_fold C n ex dexp V staps c (directions L) N0 K d x (uniq_directions L).
move: (fold_left _ _ (N0, K)) H => [N1 K1]; cbn [fst snd] => H; apply: fields_gradient => // d x hd hx.
  by have [-> _] := H d x; rewrite in_directions hd /kappa /q_arg HS.
by have [_ ->] := H d x; rewrite in_directions hd /first_matrix /kappa /q_arg HS.
Qed.
End Step.
