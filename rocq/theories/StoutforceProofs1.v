(** The products of the force with the velocity of the links. *)
Set Warnings "-notation-overridden,-ambiguous-paths".
From Coq Require Import ZArith List.
From mathcomp Require Import all_ssreflect all_fingroup all_algebra.
From Verif Require Import LinalgSpec FieldTac AlgebraModel AlgebraSpec AlgebraProofs2 AlgebraProofs4 AlgebraProofs5 AlgebraProps
  GaugeModel GaugeSpec GaugeMatrix GaugeProofs1 GaugeProofs2 MatrixSpec ForceModel ForceSpec
  ForceProofs1 ForceProofs2 ForceProofs3 ForceProofs4 ForceProofs5 ForceProofs7 ForceProofs10 ForceProps
  ForceProofs9 GaussModel GaussSpec GaussProofs1 GaussProofs2 GaussProofs3
  StoutModel StoutSpec StoutProofs1 StoutforceModel StoutforceSpec.
Set Implicit Arguments.
Unset Strict Implicit.
Unset Printing Implicit Defensive.
Import Order.TTheory GRing.Theory Num.Theory.
Local Open Scope ring_scope.

Section Force.
Variables (C : numClosedFieldType) (n : nat) (L : list Z) (ex : (nat -> C) -> 'M[C]_n) (dexp : (nat -> C) -> (nat -> C) -> 'M[C]_n).
Hypotheses (n0 : (0 < n)%N) (HL : sizes L).
Notation CM := (complex_matrices C n).
Notation LM := (complex_linear C n).
Notation SU := (su_algebra C n).
Notation PG := (su_gauss ex).
Notation dn := (GaugeModel.down L).
Notation Ex := (@algebra_matrix C n).
Notation toalg := (@algebra_components C n).
Notation rc := (real_components (n * n - 1)).
Notation prod := (product n L).

Variable E : moments C.
Hypothesis RE : real_momenta n L E.
Definition rt (d : nat) (x : site) (A : 'M[C]_n) : C := 'Re (\tr (Ex (E d x) *m A)).

Lemma set_dirE (K : moments C) d (f : site -> nat -> C) d' x :
  set_dir CM SU K d f d' x = if d' == d then f x else K d' x.
Proof. by rewrite /set_dir eqb_eq. Qed.

(** A change of the momenta in one direction. *)
Lemma prod_dir (K : moments C) d (f : site -> nat -> C) : (d < length L)%N ->
  prod E (set_dir CM SU K d f) = prod E K + \sum_(x <- sites L) (dot n (E d x) (f x) - dot n (E d x) (K d x)).
Proof.
move=> hd; have ul := uniq_directions L; have dl : d \in directions L by rewrite in_directions.
rewrite /product (bigD1_seq d) //= [in RHS](bigD1_seq d) //= addrAC -big_split /=; congr (_ + _).
  by apply: eq_bigr => x _; rewrite addrC subrK; apply: eq_bigr => k _; rewrite set_dirE eqxx.
by apply: eq_bigr => d' /negbTE nd; apply: eq_bigr => x _; apply: eq_bigr => k _; rewrite set_dirE nd.
Qed.

Lemma prod_sub (K : moments C) d (A : site -> 'M[C]_n) : (d < length L)%N ->
  prod E (set_dir CM SU K d (fun x k => K d x k - toalg (A x) k)) = prod E K + 2%:R * \sum_(x <- sites L) rt d x (A x).
Proof.
move=> hd; rewrite prod_dir // mulr_sumr; congr (_ + _); apply: sum_sites => x hx.
have e : dot n (E d x) (fun k => K d x k - toalg (A x) k) = dot n (E d x) (K d x) - dot n (E d x) (toalg (A x)).
  rewrite dotC dot_subl; congr (_ - _); exact: dotC.
rewrite e addrAC subrr add0r dot_toalg ?opprK // => k hk; exact: RE.
Qed.

(** ** The staples *)
Section Pairs.
Variables (V N : links C n).
Definition t2 d1 d2 x : 'M[C]_n := V d2 (up L d1 x) *m dg (N d1 (up L d2 x)) *m dg (V d2 x).
Definition t1 d1 d2 x : 'M[C]_n := V d2 (up L d1 x) *m dg (V d1 (up L d2 x)) *m dg (V d2 x).
Definition k21 d1 d2 x : 'M[C]_n := dg (V d2 x) *m N d1 x *m (V d2 (up L d1 x) *m dg (V d1 (up L d2 x))).
Definition k22 d1 d2 x : 'M[C]_n := t1 d1 d2 x *m N d1 x + t2 d1 d2 x *m V d1 x.
Definition k23 d1 d2 x : 'M[C]_n := V d1 x *m t2 d1 d2 x.
Definition k24 d1 d2 x : 'M[C]_n := N d1 x *m t1 d1 d2 x + k23 d1 d2 x.
Definition pair_sum d1 d2 : C :=
  \sum_(x <- sites L) rt d2 x (k22 d1 d2 (dn d1 x) - k24 d1 d2 x) + \sum_(x <- sites L) rt d1 x (k23 d1 d2 x - k21 d1 d2 (dn d2 x)).

Lemma force_pairE d1 d2 (K : moments C) : (d1 < length L)%N -> (d2 < length L)%N ->
  prod E (force_pair CM LM SU PG L V N d1 K d2) = prod E K + (if d2 != d1 then 2%:R * pair_sum d1 d2 else 0).
Proof.
move=> h1 h2; rewrite /force_pair eqb_eq eq_sym; case: eqP => [_|ne]; first by rewrite addr0.
pose K2 : moments C := set_dir CM SU K d2 (fun x k => K d2 x k - toalg (k22 d1 d2 (dn d1 x) - k24 d1 d2 x) k).
transitivity (prod E (set_dir CM SU K2 d1 (fun x k => K2 d1 x k - toalg (k23 d1 d2 x - k21 d1 d2 (dn d2 x)) k))); first reflexivity.
by rewrite prod_sub // /K2 prod_sub // /pair_sum mulrDr addrA.
Qed.

Lemma pairs_inner l d1 (K : moments C) : (d1 < length L)%N -> (forall d, d \in l -> (d < length L)%N) ->
  prod E (fold_left (force_pair CM LM SU PG L V N d1) l K) = prod E K + 2%:R * \sum_(d2 <- l | d2 != d1) pair_sum d1 d2.
Proof.
move=> h1; elim: l K => [|d2 l IH] K H /=; first by rewrite big_nil mulr0 addr0.
rewrite IH => [|d hd]; last by apply: H; rewrite in_cons hd orbT.
rewrite force_pairE //; last by apply: H; exact: mem_head.
rewrite big_cons; case: (d2 != d1); rewrite ?addr0 // (mulrDr _ (pair_sum d1 d2)) addrA; reflexivity.
Qed.

Lemma pairs_outer l (K : moments C) : (forall d, d \in l -> (d < length L)%N) ->
  prod E (fold_left (fun K d1 => fold_left (force_pair CM LM SU PG L V N d1) (directions L) K) l K)
  = prod E K + 2%:R * \sum_(d1 <- l) \sum_(d2 <- directions L | d2 != d1) pair_sum d1 d2.
Proof.
elim: l K => [|d1 l IH] K H /=; first by rewrite big_nil mulr0 addr0.
rewrite IH => [|d hd]; last by apply: H; rewrite in_cons hd orbT.
rewrite pairs_inner; first by rewrite big_cons (mulrDr _ (\sum_(d2 <- directions L | d2 != d1) pair_sum d1 d2)) addrA.
  by apply: H; exact: mem_head.
by move=> d; rewrite in_directions.
Qed.

(** *** Their rates *)
Notation Em d x := (Ex (E d x)).
Definition dustap d1 d2 x : 'M[C]_n :=
  Em d2 (up L d1 x) *m t1 d1 d2 x - V d2 (up L d1 x) *m dg (V d1 (up L d2 x)) *m Em d1 (up L d2 x) *m dg (V d2 x)
  - t1 d1 d2 x *m Em d2 x.
Definition dlstap d1 d2 x : 'M[C]_n :=
  dg (- (dg (V d2 x) *m Em d2 x *m V d1 x *m V d2 (up L d1 x)) + dg (V d2 x) *m Em d1 x *m V d1 x *m V d2 (up L d1 x)
      + dg (V d2 x) *m V d1 x *m Em d2 (up L d1 x) *m V d2 (up L d1 x)).
Definition rate d1 x : 'M[C]_n := \sum_(d2 <- directions L | d2 != d1) (dustap d1 d2 x + dlstap d1 d2 (dn d2 x)).

Lemma cyc (A B : 'M[C]_n) : 'Re (\tr (A *m B)) = 'Re (\tr (B *m A)).
Proof. by rewrite mxtrace_mulC. Qed.

Lemma upper_rate d1 d2 x : 'Re (\tr (N d1 x *m dustap d1 d2 x)) =
  rt d2 (up L d1 x) (t1 d1 d2 x *m N d1 x) - rt d1 (up L d2 x) (k21 d1 d2 x) - rt d2 x (N d1 x *m t1 d1 d2 x).
Proof.
rewrite /dustap /rt /k21 /t1.
move: (Em d2 (up L d1 x)) (Em d1 (up L d2 x)) (Em d2 x) (V d2 (up L d1 x)) (V d1 (up L d2 x)) (V d2 x) (N d1 x) => e1 e2 e3 u v w m.
rewrite !mulmxBr !re_trB; congr (_ - _ - _).
- by rewrite cyc !mulmxA.
- by rewrite (cyc _ (_ *m (u *m dg v))) !mulmxA cyc !mulmxA cyc !mulmxA.
by rewrite (cyc e3) !mulmxA.
Qed.

Lemma lower_rate d1 d2 x : 'Re (\tr (N d1 (up L d2 x) *m dlstap d1 d2 x)) =
  rt d2 (up L d1 x) (t2 d1 d2 x *m V d1 x) + rt d1 x (k23 d1 d2 x) - rt d2 x (k23 d1 d2 x).
Proof.
rewrite /dlstap /rt /k23 /t2.
move: (Em d2 (up L d1 x)) (Em d1 x) (Em d2 x) (V d2 (up L d1 x)) (V d1 x) (V d2 x) (N d1 (up L d2 x)) => e1 e2 e3 u v w m.
rewrite -re_dg dg_mul dgK !mulmxDl !re_trD mulNmx re_trN addrC addrA [in RHS]addrAC; congr (_ + _ + _).
- by rewrite -!mulmxA cyc -!mulmxA cyc -!mulmxA.
- by congr (- _); rewrite -!mulmxA cyc -!mulmxA.
by rewrite -!mulmxA cyc -!mulmxA.
Qed.
End Pairs.
End Force.
