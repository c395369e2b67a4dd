(** Sums of staples and one step of smearing. *)
Set Warnings "-notation-overridden,-ambiguous-paths".
From Coq Require Import ZArith List.
From mathcomp Require Import all_ssreflect all_fingroup all_algebra.
From Verif Require Import LinalgSpec FieldTac AlgebraModel AlgebraSpec AlgebraProofs2 AlgebraProofs4 AlgebraProofs5 AlgebraProps
  GaugeModel GaugeSpec GaugeMatrix GaugeProofs1 GaugeProofs2 MatrixSpec ForceModel ForceSpec
  ForceProofs1 ForceProofs2 ForceProofs3 ForceProofs4 ForceProofs5 ForceProofs7 ForceProofs10 ForceProps
  ForceProofs9 GaussModel GaussSpec GaussProofs1 GaussProofs2 GaussProofs3 GaussProofs4 GaussProofs6 GaussProofs7
  FlowModel FlowSpec FlowProofs1 FlowProofs2 FlowProofs7 FlowProofs8
  FlowstepSpec FlowstepProofs1 FlowstepProofs2 FlowstepProofs3 StoutModel StoutSpec.
Set Implicit Arguments.
Unset Strict Implicit.
Unset Printing Implicit Defensive.
Import Order.TTheory GRing.Theory Num.Theory.
Local Open Scope ring_scope.

Section Stout.
Variables (C : numClosedFieldType) (n : nat) (L : list Z) (ex : (nat -> C) -> 'M[C]_n).
Hypotheses (n0 : (0 < n)%N) (HL : sizes L).
Notation CM := (complex_matrices C n).
Notation SU := (su_algebra C n).
Notation PG := (su_gauss ex).
Notation dn := (GaugeModel.down L).
Notation line U p x := (path_line (M := CM) L U p x : 'M[C]_n).
Notation part := (@ForceSpec.algebra_part C n).

(** ** The sums of staples *)
Section Sums.
Variable V : links C n.
Definition st2 (d1 d2 d : nat) x : 'M[C]_n :=
  (if d == d2 then ustap L V d2 d1 x else 0) + (if d == d1 then lstap L V d1 d2 (dn d2 x) else 0).

Lemma set_linksE (U : links C n) d (f : site -> 'M[C]_n) d' x :
  set_links CM U d f d' x = if d' == d then f x else U d' x.
Proof. by rewrite /set_links eqb_eq. Qed.

Lemma pairE (S : links C n) d1 d2 d x : staplesums_pair CM L V S d1 d2 d x = S d x + (if d2 != d1 then st2 d1 d2 d x else 0).
Proof.
rewrite /staplesums_pair /st2 eqb_eq; case: eqP => [->|ne] /=; first by rewrite addr0.
rewrite !set_linksE.
have [->|n1] := eqVneq d d1.
  by move/eqP: ne; rewrite eq_sym => /negbTE ->; rewrite add0r.
by rewrite addr0; have [->|n2] := eqVneq d d2; rewrite ?addr0.
Qed.

Lemma inner_sum l (S : links C n) d1 d x :
  fold_left (fun S d2 => staplesums_pair CM L V S d1 d2) l S d x = S d x + \sum_(d2 <- l | d2 != d1) st2 d1 d2 d x.
Proof.
elim: l S => [|d2 l IH] S /=; first by rewrite big_nil addr0.
by rewrite IH pairE big_cons; case: (d2 != d1); rewrite ?addr0 ?addrA.
Qed.

Lemma outer_sum l (S : links C n) d x :
  fold_left (fun S d1 => fold_left (fun S d2 => staplesums_pair CM L V S d1 d2) (directions L) S) l S d x
  = S d x + \sum_(d1 <- l) \sum_(d2 <- directions L | d2 != d1) st2 d1 d2 d x.
Proof.
elim: l S => [|d1 l IH] S /=; first by rewrite big_nil addr0.
by rewrite IH inner_sum big_cons addrA.
Qed.

Lemma clear_fold l (S : links C n) d x :
  fold_left (fun S d1 => set_links CM S d1 (fun _ => mzero CM)) l S d x = if d \in l then 0 else S d x.
Proof.
elim: l S => [//|d1 l IH] S /=; rewrite IH set_linksE in_cons.
by case: ifP => [_|]; rewrite ?orbT // orbF; case: (_ == _).
Qed.

Lemma pick (R : zmodType) (l : list nat) (P : pred nat) (f : nat -> R) d : uniq l -> d \in l ->
  \sum_(i <- l | P i) (if d == i then f i else 0) = if P d then f d else 0.
Proof.
move=> ul dl; rewrite big_mkcond (bigD1_seq d) //= eqxx big1 ?addr0 // => i ni.
by rewrite eq_sym (negbTE ni) if_same.
Qed.

Lemma staplesumsE (S : links C n) d x : (d < length L)%N -> staplesums CM L V S d x = staples L V d x.
Proof.
move=> hd; have ul := uniq_directions L; have dl : d \in directions L by rewrite in_directions.
rewrite /staplesums outer_sum clear_fold dl add0r.
rewrite (eq_bigr (fun d1 => (if d1 != d then ustap L V d d1 x else 0)
   + (if d == d1 then \sum_(d2 <- directions L | d2 != d1) lstap L V d1 d2 (dn d2 x) else 0))); last first.
  move=> d1 _; rewrite /st2 big_split /= (@pick _ _ (fun d2 => d2 != d1)) // (eq_sym d1 d); congr (_ + _).
  by have [_|ne] := eqVneq d d1; last by rewrite big1.
rewrite big_split /= -big_mkcond (@pick _ _ predT) // -big_split.
by rewrite /staples; apply: eq_bigr.
Qed.

Lemma apply_fold (f : nat -> site -> 'M[C]_n) (h : links C n -> nat -> site -> 'M[C]_n) l (S : links C n) d x : uniq l ->
  (forall S' d' x', d' \in l -> S' d' x' = S d' x' -> h S' d' x' = f d' x') ->
  fold_left (fun S d => set_links CM S d (fun x => h S d x)) l S d x = if d \in l then f d x else S d x.
Proof.
elim: l S => [//|d1 l IH] S /= /andP [nl ul] H.
rewrite IH // => [|S' d' x' hd' e]; last first.
  apply: H; first by rewrite in_cons hd' orbT.
  rewrite e set_linksE; case: eqP => // E; by rewrite -E hd' in nl.
rewrite in_cons set_linksE; case: ifP => [_|nd]; first by rewrite orbT.
rewrite orbF; case: eqP => // ->; apply: H => //; exact: mem_head.
Qed.

Definition smear (c : C) d x : 'M[C]_n := ex (components (- c) (V d x *m staples L V d x)) *m V d x.

Lemma smear1E (S : links C n) c d x : (d < length L)%N -> stout_smear1 CM SU PG L V S c d x = smear c d x.
Proof.
move=> hd; rewrite /stout_smear1.
rewrite (@apply_fold (smear c)) ?in_directions ?hd //; first exact: uniq_directions.
move=> S' d' x'; rewrite in_directions => hd' e; rewrite /smear -(staplesumsE S x' hd') -e; reflexivity.
Qed.

Lemma smear1_stapE (S T : links C n) c d x : (d < length L)%N ->
  (stout_smear1_stap CM SU PG L V S T c).1 d x = smear c d x /\ (stout_smear1_stap CM SU PG L V S T c).2 d x = staples L V d x.
Proof.
move=> hd; split; last exact: staplesumsE.
rewrite /stout_smear1_stap /= (@apply_fold (smear c)) ?in_directions ?hd //; first exact: uniq_directions.
move=> S' d' x'; rewrite in_directions => hd' e; rewrite /smear -(staplesumsE T x' hd'); reflexivity.
Qed.
End Sums.

(** ** Plaquettes *)
Lemma plaquettesE (V : links C n) d x : on_lattice L x -> V d x *m staples L V d x = plaquette_sum L V d x.
Proof.
move=> hx; rewrite /staples mulmx_sumr; apply: eq_bigr => d2 ne; rewrite /two mulmxDr; congr (_ + _).
  rewrite /ustap dg_mul.
  rewrite -[RHS]/(V d x *m (V d2 (up L d x) *m (dg (V d (dn d (up L d2 (up L d x)))) *m
    (dg (V d2 (dn d2 (dn d (up L d2 (up L d x))))) *m 1%:M)))) mulmx1.
  have hy := up_on L d2 x HL hx.
  by rewrite (up_comm L d2 d) (down_up _ _ _ HL hy) (down_up _ _ _ HL hx).
have hx2 := down_on L d2 x HL hx; have hxd := up_on L d x HL hx.
rewrite /lstap dg_mul.
rewrite -[RHS]/(V d x *m (dg (V d2 (dn d2 (up L d x))) *m (dg (V d (dn d (dn d2 (up L d x)))) *m
    (V d2 (dn d (dn d2 (up L d x))) *m 1%:M)))) mulmx1.
by rewrite -(up_down_comm L d d2 x HL) (down_up _ _ _ HL hx2) !mulmxA.
Qed.

Lemma components_ok s (A : 'M[C]_n) : s \is Num.real ->
  real_components (n * n - 1) (components s A) /\ algebra_matrix n (components s A) = s *: part A.
Proof.
move=> rs; have E k : (k < n * n - 1)%N -> components s A k = s * @algebra_components C n A k.
  by move=> hk; rewrite /components (project_scaledE (C73_hypotheses C)).
split=> [k hk|]; first by rewrite E // realM //; exact: toalg_real.
rewrite part_AP -(Ex_toalg n0).
have := Ex_lin n (fun _ => 0) (@algebra_components C n A) rs; rewrite Ex0 add0r => <-.
by apply: Ex_ext => k hk; rewrite add0r E.
Qed.

Lemma smear_smeared V (S : links C n) c : c \is Num.real -> (forall d x, (d < length L)%N -> on_lattice L x -> S d x = smear V c d x) ->
  smeared L ex c V S.
Proof.
move=> rc H d x hd hx; have [R E] := @components_ok (- c) (V d x *m staples L V d x) (eq_trans (realN c) rc).
by exists (components (- c) (V d x *m staples L V d x)); split=> //; [rewrite E plaquettesE|rewrite H].
Qed.

Theorem smear1_ok V (S : links C n) c : c \is Num.real -> smeared L ex c V (stout_smear1 CM SU PG L V S c).
Proof. by move=> rc; apply: smear_smeared => // d x hd _; exact: smear1E. Qed.
End Stout.
