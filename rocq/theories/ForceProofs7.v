(** The plaquette action and its force. *)
Set Warnings "-notation-overridden,-ambiguous-paths".
From Coq Require Import ZArith List.
From mathcomp Require Import all_ssreflect all_algebra.
From Verif Require Import LinalgSpec AlgebraModel AlgebraSpec
  GaugeModel GaugeSpec GaugeMatrix GaugeProofs1 MatrixSpec ForceModel ForceSpec
  ForceProofs1 ForceProofs2 ForceProofs3 ForceProofs4 ForceProofs5 ForceProofs6.
Set Implicit Arguments.
Unset Strict Implicit.
Unset Printing Implicit Defensive.
Import Order.TTheory GRing.Theory Num.Theory.
Local Open Scope ring_scope.

Section Lists.
Variable R : zmodType.

Lemma sum_prod (A B : Type) (a : list A) (b : list B) (F : A * B -> R) :
  \sum_(p <- list_prod a b) F p = \sum_(x <- a) \sum_(y <- b) F (x, y).
Proof.
elim: a => [|x a IH]; first by rewrite !big_nil.
by rewrite /= big_cat big_map IH big_cons.
Qed.

(** Every pair of different directions, once in the right order. *)
Lemma sum_pairs (l : list nat) (F : nat -> nat -> R) :
  \sum_(a <- l) \sum_(b <- l) (if (a < b)%N then F a b + F b a else 0)
  = \sum_(a <- l) \sum_(b <- l | b != a) F a b.
Proof.
pose G a b := if (a < b)%N then F a b else 0.
pose H a b := if (b < a)%N then F a b else 0.
have -> : \sum_(a <- l) \sum_(b <- l) (if (a < b)%N then F a b + F b a else 0)
        = \sum_(a <- l) \sum_(b <- l) G a b + \sum_(a <- l) \sum_(b <- l) H b a.
  rewrite -big_split; apply: eq_bigr => a _; rewrite -big_split; apply: eq_bigr => b _ /=.
  by rewrite /G /H; case: ifP => _ //; rewrite addr0.
rewrite [X in _ + X]exchange_big -big_split; apply: eq_bigr => a _ /=; rewrite -big_split [RHS]big_mkcond.
apply: eq_bigr => b _; rewrite /G /H /=; case: ltngtP => h; rewrite ?addr0 ?add0r //.
Qed.
End Lists.

Section Fold.
Variables (C : numClosedFieldType) (n : nat).
Notation DM := (dual C n).

Lemma fold_snd (T : Type) (l : list T) (h : re DM -> T -> re DM) (f : T -> C) s :
  (forall x s, In x l -> (h s x).2 = s.2 + f x) -> (fold_left h l s).2 = s.2 + \sum_(x <- l) f x.
Proof.
elim: l s => [|x l IH] s H; first by rewrite big_nil addr0.
rewrite /= IH => [|y s' h']; last by apply: H; right.
by rewrite H ?big_cons ?addrA //; left.
Qed.
End Fold.

Lemma ltb_lt (a b : nat) : Nat.ltb a b = (a < b)%N.
Proof. by case: (Nat.ltb_spec0 a b) => [/ssrnat.ltP ->|/ssrnat.ltP/negbTE ->]. Qed.

Section Plaquette.
Variables (C : numClosedFieldType) (n : nat) (L : list Z).
Hypotheses (n0 : (0 < n)%N) (HL : sizes L).
Notation CM := (complex_matrices C n).
Notation DM := (dual C n).
Notation SU := (su_algebra C n).
Variables (V : links C n) (E : moments C).
Notation up := (up L).
Notation down := (GaugeModel.down L).

Definition ustap d1 d2 x : 'M[C]_n := V d2 (up d1 x) *m dg (V d2 x *m V d1 (up d2 x)).
Definition lstap d1 d2 x : 'M[C]_n := dg (V d1 x *m V d2 (up d1 x)) *m V d2 x.
Definition two d1 x d2 : 'M[C]_n := ustap d1 d2 x + lstap d1 d2 (down d2 x).
Definition staples d1 x : 'M[C]_n := \sum_(d2 <- directions L | d2 != d1) two d1 x d2.

Lemma rstaples_fold d1 l (st : site -> 'M[C]_n) first x :
  (fold_left (rstaples_dir CM L V d1) l (st, first)).1 x =
  if first && all (pred1 d1) l then st x
  else (if first then 0 else st x) + \sum_(d2 <- l | d2 != d1) two d1 x d2.
Proof.
elim: l st first => [|d2 l IH] st first /=.
  by case: first; rewrite ?big_nil ?addr0.
rewrite eqb_eq big_cons; case: eqP => [->|nd] /=; first exact: IH.
rewrite IH andbF /= addrA; congr (_ + _).
by case: first => /=; rewrite ?add0r // -!addrA.
Qed.

Lemma other_direction d1 : (1 < length L)%N -> ~~ all (pred1 d1) (directions L).
Proof.
rewrite directions_iota => h; apply/negP => /allP H.
have := H 0%N; have := H 1%N; rewrite !mem_iota /= !add0n h (ltnW h) => /(_ isT) /eqP e1 /(_ isT) /eqP e0.
by move: e1; rewrite -e0.
Qed.

Lemma rstaplesumE st d1 x : (1 < length L)%N -> rstaplesum CM L V st d1 x = staples d1 x.
Proof.
by move=> h; rewrite /rstaplesum rstaples_fold (negbTE (other_direction d1 h)) add0r.
Qed.

Definition kick eps d x : nat -> C := components eps (V d x *m staples d x).

Lemma uniq_directions : uniq (directions L).
Proof. by rewrite directions_iota iota_uniq. Qed.

Lemma in_directions d : (d \in directions L) = (d < length L)%N.
Proof. by rewrite directions_iota mem_iota. Qed.

Lemma force_fold (op : (nat -> C) -> (nat -> C) -> (nat -> C)) eps l st K d x : (1 < length L)%N -> uniq l ->
  (fold_left (fun st d =>
      let '(staple, K) := st in
      let staple' := rstaplesum CM L V staple d in
      (staple', set_dir CM SU K d (fun x =>
        op (K d x) (components eps (GaugeModel.mul CM (V d x) (staple' x)))))) l (st, K)).2 d x
  = if d \in l then op (K d x) (kick eps d x) else K d x.
Proof.
move=> h; elim: l st K => [//|d' l IH] st K /= /andP [nl ul].
rewrite IH // in_cons /set_dir eqb_eq.
have [->|nd] := eqVneq d d'; last by [].
by rewrite (negbTE nl) /kick rstaplesumE.
Qed.

Lemma force_add_at stale K eps d x : (1 < length L)%N -> (d < length L)%N ->
  get_force_wplaq_add CM SU L V stale K eps d x = (fun k => K d x k - kick eps d x k).
Proof.
move=> h hd; have := @force_fold (fun a b k => a k - b k) eps (directions L) stale K d x h uniq_directions.
by rewrite in_directions hd.
Qed.

Lemma force_at stale K eps d x : (1 < length L)%N -> (d < length L)%N ->
  get_force_wplaq CM SU L V stale K eps d x = kick (- eps) d x.
Proof.
move=> h hd; have := @force_fold (fun a b => b) (- eps) (directions L) stale K d x h uniq_directions.
by rewrite in_directions hd.
Qed.

Section Real.
Hypothesis RE : real_momenta n L E.

Definition dplaq : C :=
  \sum_(d <- directions L) \sum_(x <- sites L) 'Re (\tr (Em n E d x *m (V d x *m staples d x))).

Lemma force_work stale K eps : (1 < length L)%N ->
  work n L E K (get_force_wplaq_add CM SU L V stale K eps) = 2%:R * eps * dplaq.
Proof.
move=> h; rewrite /work /dplaq mulr_sumr; apply: big_In => d /directions_lt hd.
rewrite mulr_sumr; apply: sum_sites => x hx.
rewrite force_add_at // -[RHS]opprK -pairing // -?sumrN; last by move=> k hk; apply: RE.
by apply: eq_bigr => k _; rewrite addrC addKr mulrN.
Qed.

Definition up_part d1 d2 x : C := 'Re (\tr (Em n E d1 x *m (V d1 x *m ustap d1 d2 x))).
Definition lo_part d1 d2 x : C := 'Re (\tr (Em n E d1 x *m (V d1 x *m lstap d1 d2 (down d2 x)))).

Lemma dplaq_parts : dplaq = \sum_(d1 <- directions L) \sum_(d2 <- directions L | d2 != d1)
  (\sum_(x <- sites L) (up_part d1 d2 x + lo_part d1 d2 x)).
Proof.
apply: eq_bigr => d1 _; rewrite exchange_big; apply: eq_bigr => x _.
rewrite /staples !mulmx_sumr [\sum_(i <- _ | _) _]big_mkcond re_tr_sum [RHS]big_mkcond; apply: eq_bigr => d2 _.
case: eqP => _ /=; first by rewrite re_tr0.
by rewrite /up_part /lo_part -re_trD -!mulmxDr.
Qed.

Lemma word_parts d1 d2 x : (d1 < length L)%N -> (d2 < length L)%N -> on_lattice L x ->
  'Re (\tr (GaugeModel.mul DM (GaugeModel.mul DM (VD V E d1 x) (VD V E d2 (up d1 x)))
       (dagger DM (GaugeModel.mul DM (VD V E d2 x) (VD V E d1 (up d2 x))))).2)
  = up_part d1 d2 x + lo_part d2 d1 (up d1 x) + (up_part d2 d1 x + lo_part d1 d2 (up d2 x)).
Proof.
move=> h1 h2 hx; rewrite /= /up_part /lo_part /ustap /lstap !down_up //.
set a := V d1 x; set b := V d2 (up d1 x); set c := V d2 x; set d := V d1 (up d2 x).
set ea := Em n E d1 x; set eb := Em n E d2 (up d1 x); set ec := Em n E d2 x; set ed := Em n E d1 (up d2 x).
rewrite mulmxDl re_trD dg_add mulmxDr re_trD re_trD.
have -> : 'Re (\tr (a *m b *m dg (c *m (ed *m d)))) = 'Re (\tr (ed *m (d *m (dg (a *m b) *m c)))).
  rewrite -[LHS]re_dg dg_mul dgK; congr ('Re _).
  by rewrite -!mulmxA mxtrace_mulC -!mulmxA.
have -> : 'Re (\tr (a *m b *m dg (ec *m c *m d))) = 'Re (\tr (ec *m (c *m (d *m dg (a *m b))))).
  by rewrite -[LHS]re_dg dg_mul dgK -!mulmxA.
have -> : 'Re (\tr (a *m (eb *m b) *m dg (c *m d))) = 'Re (\tr (eb *m (b *m (dg (c *m d) *m a)))).
  by congr ('Re _); rewrite -!mulmxA mxtrace_mulC -!mulmxA.
rewrite -!mulmxA.
set t1 := 'Re _; set t2 := 'Re _; set t3 := 'Re _; set t4 := 'Re _.
by rewrite [t1 + t2]addrC [t3 + t4]addrC addrC.
Qed.

Lemma wplaq_dual : (measure_s_wplaq DM L (VD V E)).2 = - (dplaq / n%:R).
Proof.
rewrite /measure_s_wplaq.
rewrite (fold_snd (f := fun p : nat * nat => if (p.1 < p.2)%N then
  - ((\sum_(x <- sites L) (up_part p.1 p.2 x + lo_part p.1 p.2 x)
    + \sum_(x <- sites L) (up_part p.2 p.1 x + lo_part p.2 p.1 x)) / n%:R) else 0)).
  rewrite add0r sum_prod /=.
  have -> : - (dplaq / n%:R) = - n%:R^-1 * dplaq by rewrite mulNr mulrC.
  rewrite dplaq_parts -sum_pairs mulr_sumr; apply: eq_bigr => a _; rewrite mulr_sumr; apply: eq_bigr => b _.
  by case: ifP => _; rewrite ?mulr0 // mulNr mulrC.
move=> [d1 d2] s /in_prod_iff [/directions_lt h1 /directions_lt h2] /=.
rewrite ltb_lt; case: ifP => _; last by rewrite addr0.
rewrite (fold_snd (f := fun x => - ((up_part d1 d2 x + lo_part d2 d1 (up d1 x)
    + (up_part d2 d1 x + lo_part d1 d2 (up d2 x))) / n%:R))).
  congr (_ + _); rewrite sumrN -mulr_suml; congr (- (_ / _)).
  rewrite !big_split /= (sum_shift [:: Up d1] (lo_part d2 d1)) // (sum_shift [:: Up d2] (lo_part d1 d2)) //.
  set t1 := \sum_(i <- _) up_part d1 d2 i; set t2 := \sum_(i <- _) lo_part d2 d1 i.
  set t3 := \sum_(i <- _) up_part d2 d1 i; set t4 := \sum_(i <- _) lo_part d1 d2 i.
  by rewrite [t3 + t4]addrC [t3 + t2]addrC [LHS]addrACA.
move=> x s' /sites_In hx; rewrite /= -(word_parts h1 h2 hx) //.
Qed.
End Real.
End Plaquette.
