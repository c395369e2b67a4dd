(** The rate of the staples; the first loop. *)
Set Warnings "-notation-overridden,-ambiguous-paths".
From Coq Require Import ZArith List.
From mathcomp Require Import all_ssreflect all_fingroup all_algebra.
From Verif Require Import LinalgSpec FieldTac AlgebraModel AlgebraSpec AlgebraProofs2 AlgebraProofs4 AlgebraProofs5 AlgebraProps
  GaugeModel GaugeSpec GaugeMatrix GaugeProofs1 GaugeProofs2 MatrixSpec ForceModel ForceSpec
  ForceProofs1 ForceProofs2 ForceProofs3 ForceProofs4 ForceProofs5 ForceProofs7 ForceProofs10 ForceProps
  ForceProofs9 GaussModel GaussSpec GaussProofs1 GaussProofs2 GaussProofs3
  StoutModel StoutSpec StoutProofs1 StoutforceModel StoutforceSpec StoutforceProofs1.
Set Implicit Arguments.
Unset Strict Implicit.
Unset Printing Implicit Defensive.
Import Order.TTheory GRing.Theory Num.Theory.
Local Open Scope ring_scope.

Section Force.
Variables (C : numClosedFieldType) (n : nat) (L : list Z) (ex : (nat -> C) -> 'M[C]_n) (dexp : (nat -> C) -> (nat -> C) -> 'M[C]_n).
Hypotheses (n0 : (0 < n)%N) (HL : sizes L).
Notation CM := (complex_matrices C n).
Notation LM := (complex_linear C n).
Notation SU := (su_algebra C n).
Notation PG := (su_gauss ex).
Notation dn := (GaugeModel.down L).
Notation Ex := (@algebra_matrix C n).
Notation toalg := (@algebra_components C n).
Notation rc := (real_components (n * n - 1)).
Notation prod := (product n L).

Lemma sum_up (f : site -> C) d : \sum_(x <- sites L) f (up L d x) = \sum_(x <- sites L) f x.
Proof. exact: (sum_shift [:: Up d] f HL). Qed.

Section Rates.
Variables (E : moments C) (V N : links C n).
Hypothesis RE : real_momenta n L E.

Lemma rtB d x (A B : 'M[C]_n) : rt E d x (A - B) = rt E d x A - rt E d x B.
Proof. by rewrite /rt mulmxBr re_trB. Qed.
Lemma rtD d x (A B : 'M[C]_n) : rt E d x (A + B) = rt E d x A + rt E d x B.
Proof. by rewrite /rt mulmxDr re_trD. Qed.

Lemma pair_rate d1 d2 :
  pair_sum L E V N d1 d2 = \sum_(x <- sites L) 'Re (\tr (N d1 x *m (dustap L E V d1 d2 x + dlstap L E V d1 d2 (dn d2 x)))).
Proof.
rewrite [RHS](sum_sites (g := fun x => 'Re (\tr (N d1 x *m dustap L E V d1 d2 x)) +
   'Re (\tr (N d1 x *m dlstap L E V d1 d2 (dn d2 x))))); last by move=> x _; rewrite mulmxDr re_trD.
rewrite big_split /=.
rewrite -(sum_up (fun x => 'Re (\tr (N d1 x *m dlstap L E V d1 d2 (dn d2 x)))) d2) /=.
rewrite (sum_sites (f := fun x => 'Re (\tr (N d1 (up L d2 x) *m dlstap L E V d1 d2 (dn d2 (up L d2 x)))))
  (g := fun x => 'Re (\tr (N d1 (up L d2 x) *m dlstap L E V d1 d2 x)))); last first.
  by move=> x hx; rewrite (down_up L d2 x HL hx).
rewrite (eq_bigr _ (fun x _ => upper_rate L E V N d1 d2 x)) (eq_bigr _ (fun x _ => lower_rate L E V N d1 d2 x)) /pair_sum.
rewrite -(sum_up (fun x => rt E d2 x (k22 L V N d1 d2 (dn d1 x) - k24 L V N d1 d2 x)) d1) /=.
rewrite (sum_sites (f := fun x => rt E d2 (up L d1 x) (k22 L V N d1 d2 (dn d1 (up L d1 x)) - k24 L V N d1 d2 (up L d1 x)))
  (g := fun x => rt E d2 (up L d1 x) (k22 L V N d1 d2 x) - rt E d2 (up L d1 x) (k24 L V N d1 d2 (up L d1 x)))); last first.
  by move=> x hx; rewrite (down_up L d1 x HL hx) rtB.
rewrite sumrB (sum_up (fun x => rt E d2 x (k24 L V N d1 d2 x)) d1).
rewrite -(sum_up (fun x => rt E d1 x (k23 L V N d1 d2 x - k21 L V N d1 d2 (dn d2 x))) d2) /=.
rewrite (sum_sites (f := fun x => rt E d1 (up L d2 x) (k23 L V N d1 d2 (up L d2 x) - k21 L V N d1 d2 (dn d2 (up L d2 x))))
  (g := fun x => rt E d1 (up L d2 x) (k23 L V N d1 d2 (up L d2 x)) - rt E d1 (up L d2 x) (k21 L V N d1 d2 x))); last first.
  by move=> x hx; rewrite (down_up L d2 x HL hx) rtB.
rewrite sumrB (sum_up (fun x => rt E d1 x (k23 L V N d1 d2 x)) d2).
rewrite !sumrB big_split /=.
rewrite (eq_bigr (fun x => rt E d2 (up L d1 x) (t1 L V d1 d2 x *m N d1 x) + rt E d2 (up L d1 x) (t2 L V N d1 d2 x *m V d1 x))); last first.
  by move=> x _; rewrite /k22 rtD.
rewrite [X in _ - X + _](eq_bigr (fun x => rt E d2 x (N d1 x *m t1 L V d1 d2 x) + rt E d2 x (k23 L V N d1 d2 x))); last first.
  by move=> x _; rewrite /k24 rtD.
rewrite !big_split /=; move: (\sum_(x <- _) _) (\sum_(x <- _) _) (\sum_(x <- _) _) (\sum_(x <- _) _) (\sum_(x <- _) _) (\sum_(x <- _) _) => a b c d e f.
by rewrite opprD; exact: (AC (2*2*2)%AC ((1*6*3)*(2*5*4))%AC).
Qed.

Lemma rates : \sum_(d1 <- directions L) \sum_(d2 <- directions L | d2 != d1) pair_sum L E V N d1 d2
  = \sum_(d <- directions L) \sum_(x <- sites L) 'Re (\tr (N d x *m rate L E V d x)).
Proof.
apply: eq_bigr => d1 _; rewrite (eq_bigr _ (fun d2 _ => pair_rate d1 d2)) exchange_big /=.
apply: eq_bigr => x _; rewrite /rate mulmx_sumr.
by rewrite (big_morph (fun A : 'M[C]_n => 'Re (\tr A)) (@re_trD C n) (re_tr0 C n)).
Qed.

(** ** The staples of moving links *)
Variable U : C -> links C n.
Hypothesis HU : links_move L U V E.
Notation Em d x := (Ex (E d x)).

Lemma link_rate d x : (d < length L)%N -> on_lattice L x -> mderiv (fun t => U t d x) (V d x) (Em d x *m V d x).
Proof. by move=> hd hx i j; apply: HU. Qed.
Lemma Em_anti d x : (d < length L)%N -> on_lattice L x -> dg (Em d x) = - Em d x.
Proof. by move=> hd hx; apply: (Ex_anti n0 _).1 => k hk; exact: RE. Qed.
Lemma dag_rate d x : (d < length L)%N -> on_lattice L x -> mderiv (fun t => dg (U t d x)) (dg (V d x)) (- (dg (V d x) *m Em d x)).
Proof. by move=> hd hx; have := mderiv_dag (link_rate hd hx); rewrite dg_mul Em_anti // mulmxN. Qed.

Lemma mderiv_val (f g : C -> 'M[C]_n) a b a' b' : (forall t, f t = g t) -> a = a' -> b = b' -> mderiv f a b -> mderiv g a' b'.
Proof. by move=> e <- <- H i j; apply: deriv_ext (H i j) => t _; rewrite e. Qed.

Lemma upper_move d1 d2 x : (d1 < length L)%N -> (d2 < length L)%N -> on_lattice L x ->
  mderiv (fun t => ustap L (U t) d1 d2 x) (ustap L V d1 d2 x) (dustap L E V d1 d2 x).
Proof.
move=> h1 h2 hx; have A := link_rate h2 (up_on L d1 x HL hx); have B := dag_rate h1 (up_on L d2 x HL hx); have D := dag_rate h2 hx.
have H := mderiv_mul (mderiv_mul A B) D.
apply: mderiv_val H => [t||].
- by rewrite /ustap dg_mul mulmxA.
- by rewrite /ustap dg_mul mulmxA.
rewrite /dustap /t1; move: (Em _ _) (Em _ _) (Em _ _) (V _ _) (V _ _) (V _ _) => e1 e2 e3 u v w.
rewrite !mulmxN mulmxDl mulNmx !mulmxA addrC [X in X - _]addrC; reflexivity.
Qed.

Lemma lower_move d1 d2 x : (d1 < length L)%N -> (d2 < length L)%N -> on_lattice L x ->
  mderiv (fun t => lstap L (U t) d1 d2 x) (lstap L V d1 d2 x) (dlstap L E V d1 d2 x).
Proof.
move=> h1 h2 hx; have A := dag_rate h2 hx; have B := link_rate h1 hx; have D := link_rate h2 (up_on L d1 x HL hx).
have H := mderiv_dag (mderiv_mul (mderiv_mul A B) D).
apply: mderiv_val H => [t||].
- by rewrite /lstap !dg_mul dgK !mulmxA.
- by rewrite /lstap !dg_mul dgK !mulmxA.
rewrite /dlstap; move: (Em _ _) (Em _ _) (Em _ _) (V _ _) (V _ _) (V _ _) => e1 e2 e3 u v w.
congr (dg _); rewrite mulmxDl !mulNmx !mulmxA [LHS]addrC [X in X + _]addrC; reflexivity.
Qed.

Lemma mderiv_sum (l : list nat) (P : pred nat) (f : nat -> C -> 'M[C]_n) (a b : nat -> 'M[C]_n) :
  (forall d, d \in l -> mderiv (f d) (a d) (b d)) ->
  mderiv (fun t => \sum_(d <- l | P d) f d t) (\sum_(d <- l | P d) a d) (\sum_(d <- l | P d) b d).
Proof.
elim: l => [|d l IH] H.
  apply: mderiv_val (@mderiv_const C n 0) => [t||]; by rewrite big_nil.
have {}IH := IH (fun d' h => H d' (mem_behead (s := d :: l) h)).
case p: (P d); last by apply: mderiv_val IH => [t||]; rewrite big_cons p.
by apply: mderiv_val (mderiv_add (H d (mem_head d l)) IH) => [t||]; rewrite big_cons p.
Qed.

Lemma staples_move d x : (d < length L)%N -> on_lattice L x ->
  mderiv (fun t => staples L (U t) d x) (staples L V d x) (rate L E V d x).
Proof.
move=> hd hx; apply: mderiv_sum => d2; rewrite in_directions => h2.
by apply: mderiv_add; [exact: upper_move|apply: lower_move => //; exact: down_on].
Qed.

Lemma plaquettes_move d x : (d < length L)%N -> on_lattice L x ->
  mderiv (fun t => U t d x *m staples L (U t) d x) (V d x *m staples L V d x)
    (V d x *m rate L E V d x + Em d x *m V d x *m staples L V d x).
Proof. by move=> hd hx; exact: (mderiv_mul (link_rate hd hx) (staples_move hd hx)). Qed.
End Rates.

(** ** The first loop *)
Section Dirs.
Variables (V S : links C n) (c : C).
Definition q_arg d x : nat -> C := components (- c) (V d x *m S d x).
Definition kappa (K : moments C) d x : 'M[C]_n := Ex (components c (dexp (q_arg d x) (K d x))).
Definition first_matrix (K : moments C) d x : 'M[C]_n :=
  dg (ex (q_arg d x)) *m Ex (K d x) *m ex (q_arg d x) - V d x *m S d x *m kappa K d x.

Lemma dirs_fold l (N0 : links C n) (K : moments C) d x : uniq l ->
  (fold_left (force_dir CM LM SU PG dexp V S c) l (N0, K)).1 d x = (if d \in l then kappa K d x *m V d x else N0 d x) /\
  (fold_left (force_dir CM LM SU PG dexp V S c) l (N0, K)).2 d x = (if d \in l then toalg (first_matrix K d x) else K d x).
Proof.
elim: l N0 K => [//|d1 l IH] N0 K /= /andP [nl ul].
set N1 := set_links _ _ _ _; set K1 := set_dir _ _ _ _ _.
have [-> ->] := IH N1 K1 ul; rewrite in_cons.
have eN : N1 d x = if d == d1 then kappa K d1 x *m V d1 x else N0 d x by exact: set_linksE.
have eK : K1 d x = if d == d1 then toalg (first_matrix K d1 x) else K d x by exact: set_dirE.
case: (boolP (d \in l)) => hl.
  have nd : (d == d1) = false by apply/negP => /eqP e; rewrite -e hl in nl.
  rewrite orbT /kappa /first_matrix /kappa eK nd; by split.
by rewrite orbF eN eK; case: eqP => [->|_].
Qed.
End Dirs.
End Force.
